(** The ready-made networks of contractExp.py. *)
From Coq Require Import List Arith Bool String ZArith Lia Permutation.
From Verif Require Import Base Sums NdModel HeapModel TensorModel TensorSpec NetSpec ContractModel SearchModel SearchSpec GraphModel NetGraphModel FtnModel FtnSpec FtnNetSpec
  NamedSpec NetsModel NetsSpec NamedProofs NetsProofs SearchProps.
Import ListNotations.
Local Open Scope nat_scope.
Local Open Scope string_scope.
Local Open Scope list_scope.

(** ** C58 The ready-made networks compute the advertised sums *)
(** every function of contractExp.py makes a new network with the structure of its drawing, and touches nothing else *)
Theorem C58_networks : forall A,
  (forall w : world A, exists w', triangleContractFTN w = (w', Ok (w_nftn w)) /\ made_net w w' (w_nftn w) triangle_net) /\
  (forall w : world A, exists w', squareContractFTN w = (w', Ok (w_nftn w)) /\ made_net w w' (w_nftn w) square_net) /\
  (forall w : world A, exists w', squareContractOutFTN w = (w', Ok (w_nftn w)) /\ made_net w w' (w_nftn w) square_out_net) /\
  (forall w : world A, exists w', CTMRGHEdgeExtendFTN w = (w', Ok (w_nftn w)) /\ made_net w w' (w_nftn w) hEdge_extend_net) /\
  (forall w : world A, exists w', CTMRGVEdgeExtendFTN w = (w', Ok (w_nftn w)) /\ made_net w w' (w_nftn w) vEdge_extend_net) /\
  (forall w : world A, exists w', CTMRGCornerExtendFTN w = (w', Ok (w_nftn w)) /\ made_net w w' (w_nftn w) corner_extend_net) /\
  (forall w : world A, exists w', CTMRGHEdgeBuildFTN w = (w', Ok (w_nftn w)) /\ made_net w w' (w_nftn w) hEdge_build_net) /\
  (forall w : world A, exists w', CTMRGVEdgeBuildFTN w = (w', Ok (w_nftn w)) /\ made_net w w' (w_nftn w) vEdge_build_net) /\
  (forall w : world A, exists w', CTMRGEvenZFTN w = (w', Ok (w_nftn w)) /\ made_net w w' (w_nftn w) evenZ_net) /\
  (forall w : world A, exists w', CTMRGOddFTN w = (w', Ok (w_nftn w)) /\ made_net w w' (w_nftn w) oddZ_net) /\
  (forall w : world A, exists w', squareHorizontalContractFTN "l" w = (w', Ok (w_nftn w)) /\ made_net w w' (w_nftn w) horizontal_l_net) /\
  (forall w : world A, exists w', squareHorizontalContractFTN "r" w = (w', Ok (w_nftn w)) /\ made_net w w' (w_nftn w) horizontal_r_net) /\
  (forall w : world A, exists w', squareVerticalContractFTN "u" w = (w', Ok (w_nftn w)) /\ made_net w w' (w_nftn w) vertical_u_net) /\
  (forall w : world A, exists w', squareVerticalContractFTN "d" w = (w', Ok (w_nftn w)) /\ made_net w w' (w_nftn w) vertical_d_net) /\
  (forall w : world A, exists w', HOTRGHorizontalContractFTN w = (w', Ok (w_nftn w)) /\ made_net w w' (w_nftn w) hotrg_h_net) /\
  (forall w : world A, exists w', HOTRGVerticalContractFTN w = (w', Ok (w_nftn w)) /\ made_net w w' (w_nftn w) hotrg_v_net) /\
  (forall w : world A, exists w', EvenblyTNRQEnvFTN w = (w', Ok (w_nftn w)) /\ made_net w w' (w_nftn w) tnr_env_net).
Proof. exact @networks_made. Qed.
Print Assumptions C58_networks.
(** the tensors of the examples: the given legs, entries 1, 2, 3, ... *)
Definition blank : heap Z := mkHeap (fun _ => mkLeg None 0 NNone None) (fun _ => mkBond 0 0) (fun _ => mkTensor [] None false false 0 None) 0 0 0 (fun _ => 0%Z) 0.
Definition tensors (L : list (list (string * nat))) : world Z :=
  mkWorld (fst (iterM (fun m => bind (mkDense None (Some (map (fun p => NStr (fst p)) m))
    (Some (let n := map snd m in mkArr n (map Z.of_nat (seq 1 (prodn n))))) None None false) (fun _ => ret tt)) L blank))
    (fun _ => []) 1 (fun _ => mkFtn 0 None true [] [] false false [] [] [] None) 0.
Definition returns {X} (r : res X) : Prop := match r with Ok _ => True | Err _ => False end.
Ltac example made :=
  cbv zeta; split;
  [match goal with |- is_net (fst (_ ?w)) _ _ => destruct (made Z w) as (w1 & E & MN); rewrite E; exact (ma_is _ _ _ _ _ _ _ MN) end
  |split; [vm_compute; exact I|repeat match goal with |- _ /\ _ => split end; apply dense_legsb_ok; vm_compute; reflexivity]].

(** three triangles around a vertex become one *)
Theorem C58_triangle : forall A (HA : SR A) symdiff, symdiff_ok symdiff -> forall fuel (w : world A) f w' t t_u t_l t_r D1 D2 D3 E1 E2 E3,
  contract symdiff fuel f [("u", t_u); ("l", t_l); ("r", t_r)] true w = (w', Ok t) -> is_net w f triangle_net ->
  dense_legs (w_heap w) t_u [("1", E1); ("2", D1); ("3", D2)] ->
  dense_legs (w_heap w) t_l [("1", E2); ("2", D3); ("3", D1)] ->
  dense_legs (w_heap w) t_r [("1", E3); ("2", D2); ("3", D3)] ->
  dense_legs (w_heap w') t [("1", E1); ("2", E2); ("3", E3)] /\ is_net w' f triangle_net /\
  forall i1 i2 i3, i1 < E1 -> i2 < E2 -> i3 < E3 -> 
    at_ (w_heap w') t [("1", i1); ("2", i2); ("3", i3)] =
    (sumN D1 (fun x1 => sumN D2 (fun x2 => sumN D3 (fun x3 =>
      at_ (w_heap w) t_u [("1", i1); ("2", x1); ("3", x2)] *
      at_ (w_heap w) t_l [("1", i2); ("2", x3); ("3", x1)] *
      at_ (w_heap w) t_r [("1", i3); ("2", x2); ("3", x3)]))))%sr.
Proof. exact @triangle_value. Qed.
Print Assumptions C58_triangle.
Example C58_triangle_example : let w := fst (triangleContractFTN (tensors [[("1", 2); ("2", 2); ("3", 2)]; [("1", 1); ("2", 1); ("3", 2)]; [("1", 2); ("2", 2); ("3", 1)]])) in
  is_net w 0 triangle_net /\ returns (snd (contract sd 40 0 [("u", 0); ("l", 1); ("r", 2)] true w)) /\
  dense_legs (w_heap w) 0 [("1", 2); ("2", 2); ("3", 2)] /\ dense_legs (w_heap w) 1 [("1", 1); ("2", 1); ("3", 2)] /\ dense_legs (w_heap w) 2 [("1", 2); ("2", 2); ("3", 1)].
Proof. example (@triangle_made). Qed.
(** four squares become one, with both legs of a side joined *)
Theorem C58_square : forall A (HA : SR A) symdiff, symdiff_ok symdiff -> forall fuel (w : world A) f w' t t_ul t_ur t_dr t_dl D1 D2 D3 D4 E1 E2 E3 E4 E5 E6 E7 E8,
  contract symdiff fuel f [("ul", t_ul); ("ur", t_ur); ("dr", t_dr); ("dl", t_dl)] true w = (w', Ok t) -> is_net w f square_net ->
  dense_legs (w_heap w) t_ul [("u", E1); ("l", E2); ("d", D1); ("r", D2)] ->
  dense_legs (w_heap w) t_ur [("u", E3); ("l", D2); ("d", D3); ("r", E4)] ->
  dense_legs (w_heap w) t_dr [("u", D3); ("l", D4); ("d", E5); ("r", E6)] ->
  dense_legs (w_heap w) t_dl [("u", D1); ("l", E7); ("d", E8); ("r", D4)] ->
  dense_legs (w_heap w') t [("r", E4 * E6); ("d", E8 * E5); ("l", E2 * E7); ("u", E1 * E3)] /\ is_net w' f square_net /\
  forall i1 i2 i3 i4 i5 i6 i7 i8, i1 < E1 -> i2 < E2 -> i3 < E3 -> i4 < E4 -> i5 < E5 -> i6 < E6 -> i7 < E7 -> i8 < E8 -> 
    at_ (w_heap w') t [("r", i4 * E6 + i6); ("d", i8 * E5 + i5); ("l", i2 * E7 + i7); ("u", i1 * E3 + i3)] =
    (sumN D1 (fun x1 => sumN D2 (fun x2 => sumN D3 (fun x3 => sumN D4 (fun x4 =>
      at_ (w_heap w) t_ul [("u", i1); ("l", i2); ("d", x1); ("r", x2)] *
      at_ (w_heap w) t_ur [("u", i3); ("l", x2); ("d", x3); ("r", i4)] *
      at_ (w_heap w) t_dr [("u", x3); ("l", x4); ("d", i5); ("r", i6)] *
      at_ (w_heap w) t_dl [("u", x1); ("l", i7); ("d", i8); ("r", x4)])))))%sr.
Proof. exact @square_value. Qed.
Print Assumptions C58_square.
Example C58_square_example : let w := fst (squareContractFTN (tensors [[("u", 2); ("l", 1); ("d", 2); ("r", 2)]; [("u", 2); ("l", 2); ("d", 1); ("r", 1)]; [("u", 1); ("l", 2); ("d", 2); ("r", 1)]; [("u", 2); ("l", 2); ("d", 1); ("r", 2)]])) in
  is_net w 0 square_net /\ returns (snd (contract sd 40 0 [("ul", 0); ("ur", 1); ("dr", 2); ("dl", 3)] true w)) /\
  dense_legs (w_heap w) 0 [("u", 2); ("l", 1); ("d", 2); ("r", 2)] /\ dense_legs (w_heap w) 1 [("u", 2); ("l", 2); ("d", 1); ("r", 1)] /\ dense_legs (w_heap w) 2 [("u", 1); ("l", 2); ("d", 2); ("r", 1)] /\ dense_legs (w_heap w) 3 [("u", 2); ("l", 2); ("d", 1); ("r", 2)].
Proof. example (@square_made). Qed.
(** the four halves around a plaquette become one square *)
Theorem C58_square_out : forall A (HA : SR A) symdiff, symdiff_ok symdiff -> forall fuel (w : world A) f w' t t_ul t_ur t_dl t_dr D1 D2 D3 D4 E1 E2 E3 E4,
  contract symdiff fuel f [("ul", t_ul); ("ur", t_ur); ("dl", t_dl); ("dr", t_dr)] true w = (w', Ok t) -> is_net w f square_out_net ->
  dense_legs (w_heap w) t_ul [("d", D1); ("r", D2); ("o", E1)] ->
  dense_legs (w_heap w) t_ur [("d", D3); ("l", D2); ("o", E2)] ->
  dense_legs (w_heap w) t_dl [("u", D1); ("r", D4); ("o", E3)] ->
  dense_legs (w_heap w) t_dr [("u", D3); ("l", D4); ("o", E4)] ->
  dense_legs (w_heap w') t [("u", E1); ("r", E2); ("l", E3); ("d", E4)] /\ is_net w' f square_out_net /\
  forall i1 i2 i3 i4, i1 < E1 -> i2 < E2 -> i3 < E3 -> i4 < E4 -> 
    at_ (w_heap w') t [("u", i1); ("r", i2); ("l", i3); ("d", i4)] =
    (sumN D1 (fun x1 => sumN D2 (fun x2 => sumN D3 (fun x3 => sumN D4 (fun x4 =>
      at_ (w_heap w) t_ul [("d", x1); ("r", x2); ("o", i1)] *
      at_ (w_heap w) t_ur [("d", x3); ("l", x2); ("o", i2)] *
      at_ (w_heap w) t_dl [("u", x1); ("r", x4); ("o", i3)] *
      at_ (w_heap w) t_dr [("u", x3); ("l", x4); ("o", i4)])))))%sr.
Proof. exact @square_out_value. Qed.
Print Assumptions C58_square_out.
Example C58_square_out_example : let w := fst (squareContractOutFTN (tensors [[("d", 2); ("r", 2); ("o", 2)]; [("d", 1); ("l", 2); ("o", 1)]; [("u", 2); ("r", 2); ("o", 2)]; [("u", 1); ("l", 2); ("o", 1)]])) in
  is_net w 0 square_out_net /\ returns (snd (contract sd 40 0 [("ul", 0); ("ur", 1); ("dl", 2); ("dr", 3)] true w)) /\
  dense_legs (w_heap w) 0 [("d", 2); ("r", 2); ("o", 2)] /\ dense_legs (w_heap w) 1 [("d", 1); ("l", 2); ("o", 1)] /\ dense_legs (w_heap w) 2 [("u", 2); ("r", 2); ("o", 2)] /\ dense_legs (w_heap w) 3 [("u", 1); ("l", 2); ("o", 1)].
Proof. example (@square_out_made). Qed.
(** a tensor is put on a horizontal edge *)
Theorem C58_hEdge_extend : forall A (HA : SR A) symdiff, symdiff_ok symdiff -> forall fuel (w : world A) f w' t t_p t_w D1 E1 E2 E3 E4 E5,
  contract symdiff fuel f [("p", t_p); ("w", t_w)] true w = (w', Ok t) -> is_net w f hEdge_extend_net ->
  dense_legs (w_heap w) t_p [("l", E1); ("r", E2); ("u", D1)] ->
  dense_legs (w_heap w) t_w [("u", E3); ("l", E4); ("d", D1); ("r", E5)] ->
  dense_legs (w_heap w') t [("r", E2 * E5); ("l", E1 * E4); ("u", E3)] /\ is_net w' f hEdge_extend_net /\
  forall i1 i2 i3 i4 i5, i1 < E1 -> i2 < E2 -> i3 < E3 -> i4 < E4 -> i5 < E5 -> 
    at_ (w_heap w') t [("r", i2 * E5 + i5); ("l", i1 * E4 + i4); ("u", i3)] =
    (sumN D1 (fun x1 =>
      at_ (w_heap w) t_p [("l", i1); ("r", i2); ("u", x1)] *
      at_ (w_heap w) t_w [("u", i3); ("l", i4); ("d", x1); ("r", i5)]))%sr.
Proof. exact @hEdge_extend_value. Qed.
Print Assumptions C58_hEdge_extend.
Example C58_hEdge_extend_example : let w := fst (CTMRGHEdgeExtendFTN (tensors [[("l", 2); ("r", 1); ("u", 2)]; [("u", 2); ("l", 1); ("d", 2); ("r", 2)]])) in
  is_net w 0 hEdge_extend_net /\ returns (snd (contract sd 40 0 [("p", 0); ("w", 1)] true w)) /\
  dense_legs (w_heap w) 0 [("l", 2); ("r", 1); ("u", 2)] /\ dense_legs (w_heap w) 1 [("u", 2); ("l", 1); ("d", 2); ("r", 2)].
Proof. example (@hEdge_extend_made). Qed.
(** a tensor is put on a vertical edge *)
Theorem C58_vEdge_extend : forall A (HA : SR A) symdiff, symdiff_ok symdiff -> forall fuel (w : world A) f w' t t_p t_w D1 E1 E2 E3 E4 E5,
  contract symdiff fuel f [("p", t_p); ("w", t_w)] true w = (w', Ok t) -> is_net w f vEdge_extend_net ->
  dense_legs (w_heap w) t_p [("u", E1); ("d", E2); ("r", D1)] ->
  dense_legs (w_heap w) t_w [("u", E3); ("l", D1); ("d", E4); ("r", E5)] ->
  dense_legs (w_heap w') t [("d", E2 * E4); ("u", E1 * E3); ("r", E5)] /\ is_net w' f vEdge_extend_net /\
  forall i1 i2 i3 i4 i5, i1 < E1 -> i2 < E2 -> i3 < E3 -> i4 < E4 -> i5 < E5 -> 
    at_ (w_heap w') t [("d", i2 * E4 + i4); ("u", i1 * E3 + i3); ("r", i5)] =
    (sumN D1 (fun x1 =>
      at_ (w_heap w) t_p [("u", i1); ("d", i2); ("r", x1)] *
      at_ (w_heap w) t_w [("u", i3); ("l", x1); ("d", i4); ("r", i5)]))%sr.
Proof. exact @vEdge_extend_value. Qed.
Print Assumptions C58_vEdge_extend.
Example C58_vEdge_extend_example : let w := fst (CTMRGVEdgeExtendFTN (tensors [[("u", 2); ("d", 1); ("r", 2)]; [("u", 2); ("l", 2); ("d", 1); ("r", 2)]])) in
  is_net w 0 vEdge_extend_net /\ returns (snd (contract sd 40 0 [("p", 0); ("w", 1)] true w)) /\
  dense_legs (w_heap w) 0 [("u", 2); ("d", 1); ("r", 2)] /\ dense_legs (w_heap w) 1 [("u", 2); ("l", 2); ("d", 1); ("r", 2)].
Proof. example (@vEdge_extend_made). Qed.
(** two edges and a tensor are put on a corner *)
Theorem C58_corner_extend : forall A (HA : SR A) symdiff, symdiff_ok symdiff -> forall fuel (w : world A) f w' t t_ph t_pv t_w t_c D1 D2 D3 D4 E1 E2 E3 E4,
  contract symdiff fuel f [("ph", t_ph); ("pv", t_pv); ("w", t_w); ("c", t_c)] true w = (w', Ok t) -> is_net w f corner_extend_net ->
  dense_legs (w_heap w) t_ph [("l", D2); ("r", E1); ("u", D4)] ->
  dense_legs (w_heap w) t_pv [("u", E2); ("d", D1); ("r", D3)] ->
  dense_legs (w_heap w) t_w [("u", E3); ("l", D3); ("d", D4); ("r", E4)] ->
  dense_legs (w_heap w) t_c [("u", D1); ("r", D2)] ->
  dense_legs (w_heap w') t [("r", E1 * E4); ("u", E2 * E3)] /\ is_net w' f corner_extend_net /\
  forall i1 i2 i3 i4, i1 < E1 -> i2 < E2 -> i3 < E3 -> i4 < E4 -> 
    at_ (w_heap w') t [("r", i1 * E4 + i4); ("u", i2 * E3 + i3)] =
    (sumN D1 (fun x1 => sumN D2 (fun x2 => sumN D3 (fun x3 => sumN D4 (fun x4 =>
      at_ (w_heap w) t_ph [("l", x2); ("r", i1); ("u", x4)] *
      at_ (w_heap w) t_pv [("u", i2); ("d", x1); ("r", x3)] *
      at_ (w_heap w) t_w [("u", i3); ("l", x3); ("d", x4); ("r", i4)] *
      at_ (w_heap w) t_c [("u", x1); ("r", x2)])))))%sr.
Proof. exact @corner_extend_value. Qed.
Print Assumptions C58_corner_extend.
Example C58_corner_extend_example : let w := fst (CTMRGCornerExtendFTN (tensors [[("l", 2); ("r", 2); ("u", 2)]; [("u", 1); ("d", 2); ("r", 1)]; [("u", 2); ("l", 1); ("d", 2); ("r", 1)]; [("u", 2); ("r", 2)]])) in
  is_net w 0 corner_extend_net /\ returns (snd (contract sd 40 0 [("ph", 0); ("pv", 1); ("w", 2); ("c", 3)] true w)) /\
  dense_legs (w_heap w) 0 [("l", 2); ("r", 2); ("u", 2)] /\ dense_legs (w_heap w) 1 [("u", 1); ("d", 2); ("r", 1)] /\ dense_legs (w_heap w) 2 [("u", 2); ("l", 1); ("d", 2); ("r", 1)] /\ dense_legs (w_heap w) 3 [("u", 2); ("r", 2)].
Proof. example (@corner_extend_made). Qed.
(** the two ends of a horizontal edge are projected *)
Theorem C58_hEdge_build : forall A (HA : SR A) symdiff, symdiff_ok symdiff -> forall fuel (w : world A) f w' t t_al t_ar t_p D1 D2 E1 E2 E3,
  contract symdiff fuel f [("al", t_al); ("ar", t_ar); ("p", t_p)] true w = (w', Ok t) -> is_net w f hEdge_build_net ->
  dense_legs (w_heap w) t_al [("l", E1); ("r", D1)] ->
  dense_legs (w_heap w) t_ar [("l", E2); ("r", D2)] ->
  dense_legs (w_heap w) t_p [("l", D1); ("r", D2); ("u", E3)] ->
  dense_legs (w_heap w') t [("l", E1); ("r", E2); ("u", E3)] /\ is_net w' f hEdge_build_net /\
  forall i1 i2 i3, i1 < E1 -> i2 < E2 -> i3 < E3 -> 
    at_ (w_heap w') t [("l", i1); ("r", i2); ("u", i3)] =
    (sumN D1 (fun x1 => sumN D2 (fun x2 =>
      at_ (w_heap w) t_al [("l", i1); ("r", x1)] *
      at_ (w_heap w) t_ar [("l", i2); ("r", x2)] *
      at_ (w_heap w) t_p [("l", x1); ("r", x2); ("u", i3)])))%sr.
Proof. exact @hEdge_build_value. Qed.
Print Assumptions C58_hEdge_build.
Example C58_hEdge_build_example : let w := fst (CTMRGHEdgeBuildFTN (tensors [[("l", 2); ("r", 2)]; [("l", 1); ("r", 2)]; [("l", 2); ("r", 2); ("u", 2)]])) in
  is_net w 0 hEdge_build_net /\ returns (snd (contract sd 40 0 [("al", 0); ("ar", 1); ("p", 2)] true w)) /\
  dense_legs (w_heap w) 0 [("l", 2); ("r", 2)] /\ dense_legs (w_heap w) 1 [("l", 1); ("r", 2)] /\ dense_legs (w_heap w) 2 [("l", 2); ("r", 2); ("u", 2)].
Proof. example (@hEdge_build_made). Qed.
(** the two ends of a vertical edge are projected *)
Theorem C58_vEdge_build : forall A (HA : SR A) symdiff, symdiff_ok symdiff -> forall fuel (w : world A) f w' t t_au t_ad t_p D1 D2 E1 E2 E3,
  contract symdiff fuel f [("au", t_au); ("ad", t_ad); ("p", t_p)] true w = (w', Ok t) -> is_net w f vEdge_build_net ->
  dense_legs (w_heap w) t_au [("u", D2); ("d", E1)] ->
  dense_legs (w_heap w) t_ad [("u", D1); ("d", E2)] ->
  dense_legs (w_heap w) t_p [("u", D2); ("d", D1); ("r", E3)] ->
  dense_legs (w_heap w') t [("u", E1); ("d", E2); ("r", E3)] /\ is_net w' f vEdge_build_net /\
  forall i1 i2 i3, i1 < E1 -> i2 < E2 -> i3 < E3 -> 
    at_ (w_heap w') t [("u", i1); ("d", i2); ("r", i3)] =
    (sumN D1 (fun x1 => sumN D2 (fun x2 =>
      at_ (w_heap w) t_au [("u", x2); ("d", i1)] *
      at_ (w_heap w) t_ad [("u", x1); ("d", i2)] *
      at_ (w_heap w) t_p [("u", x2); ("d", x1); ("r", i3)])))%sr.
Proof. exact @vEdge_build_value. Qed.
Print Assumptions C58_vEdge_build.
Example C58_vEdge_build_example : let w := fst (CTMRGVEdgeBuildFTN (tensors [[("u", 2); ("d", 2)]; [("u", 2); ("d", 1)]; [("u", 2); ("d", 2); ("r", 2)]])) in
  is_net w 0 vEdge_build_net /\ returns (snd (contract sd 40 0 [("au", 0); ("ad", 1); ("p", 2)] true w)) /\
  dense_legs (w_heap w) 0 [("u", 2); ("d", 2)] /\ dense_legs (w_heap w) 1 [("u", 2); ("d", 1)] /\ dense_legs (w_heap w) 2 [("u", 2); ("d", 2); ("r", 2)].
Proof. example (@vEdge_build_made). Qed.
(** four corners *)
Theorem C58_evenZ : forall A (HA : SR A) symdiff, symdiff_ok symdiff -> forall fuel (w : world A) f w' t t_alu t_ald t_aru t_ard D1 D2 D3 D4,
  contract symdiff fuel f [("alu", t_alu); ("ald", t_ald); ("aru", t_aru); ("ard", t_ard)] true w = (w', Ok t) -> is_net w f evenZ_net ->
  dense_legs (w_heap w) t_alu [("u", D1); ("r", D3)] ->
  dense_legs (w_heap w) t_ald [("u", D1); ("r", D4)] ->
  dense_legs (w_heap w) t_aru [("u", D2); ("r", D3)] ->
  dense_legs (w_heap w) t_ard [("u", D2); ("r", D4)] ->
  dense_legs (w_heap w') t [] /\ is_net w' f evenZ_net /\
  at_ (w_heap w') t [] =
    (sumN D1 (fun x1 => sumN D2 (fun x2 => sumN D3 (fun x3 => sumN D4 (fun x4 =>
      at_ (w_heap w) t_alu [("u", x1); ("r", x3)] *
      at_ (w_heap w) t_ald [("u", x1); ("r", x4)] *
      at_ (w_heap w) t_aru [("u", x2); ("r", x3)] *
      at_ (w_heap w) t_ard [("u", x2); ("r", x4)])))))%sr.
Proof. exact @evenZ_value. Qed.
Print Assumptions C58_evenZ.
Example C58_evenZ_example : let w := fst (CTMRGEvenZFTN (tensors [[("u", 2); ("r", 1)]; [("u", 2); ("r", 2)]; [("u", 2); ("r", 1)]; [("u", 2); ("r", 2)]])) in
  is_net w 0 evenZ_net /\ returns (snd (contract sd 40 0 [("alu", 0); ("ald", 1); ("aru", 2); ("ard", 3)] true w)) /\
  dense_legs (w_heap w) 0 [("u", 2); ("r", 1)] /\ dense_legs (w_heap w) 1 [("u", 2); ("r", 2)] /\ dense_legs (w_heap w) 2 [("u", 2); ("r", 1)] /\ dense_legs (w_heap w) 3 [("u", 2); ("r", 2)].
Proof. example (@evenZ_made). Qed.
(** four corners, four edges and one tensor *)
Theorem C58_oddZ : forall A (HA : SR A) symdiff, symdiff_ok symdiff -> forall fuel (w : world A) f w' t t_alu t_ald t_aru t_ard t_pl t_pr t_pd t_pu t_w D1 D2 D3 D4 D5 D6 D7 D8 D9 D10 D11 D12,
  contract symdiff fuel f [("alu", t_alu); ("ald", t_ald); ("aru", t_aru); ("ard", t_ard); ("pl", t_pl); ("pr", t_pr); ("pd", t_pd); ("pu", t_pu); ("w", t_w)] true w = (w', Ok t) -> is_net w f oddZ_net ->
  dense_legs (w_heap w) t_alu [("u", D5); ("r", D1)] ->
  dense_legs (w_heap w) t_ald [("u", D6); ("r", D3)] ->
  dense_legs (w_heap w) t_aru [("u", D7); ("r", D2)] ->
  dense_legs (w_heap w) t_ard [("u", D8); ("r", D4)] ->
  dense_legs (w_heap w) t_pl [("u", D5); ("d", D6); ("r", D9)] ->
  dense_legs (w_heap w) t_pr [("u", D7); ("d", D8); ("r", D10)] ->
  dense_legs (w_heap w) t_pd [("l", D3); ("r", D4); ("u", D11)] ->
  dense_legs (w_heap w) t_pu [("l", D1); ("r", D2); ("u", D12)] ->
  dense_legs (w_heap w) t_w [("u", D12); ("l", D9); ("d", D11); ("r", D10)] ->
  dense_legs (w_heap w') t [] /\ is_net w' f oddZ_net /\
  at_ (w_heap w') t [] =
    (sumN D1 (fun x1 => sumN D2 (fun x2 => sumN D3 (fun x3 => sumN D4 (fun x4 => sumN D5 (fun x5 => sumN D6 (fun x6 => sumN D7 (fun x7 => sumN D8 (fun x8 => sumN D9 (fun x9 => sumN D10 (fun x10 => sumN D11 (fun x11 => sumN D12 (fun x12 =>
      at_ (w_heap w) t_alu [("u", x5); ("r", x1)] *
      at_ (w_heap w) t_ald [("u", x6); ("r", x3)] *
      at_ (w_heap w) t_aru [("u", x7); ("r", x2)] *
      at_ (w_heap w) t_ard [("u", x8); ("r", x4)] *
      at_ (w_heap w) t_pl [("u", x5); ("d", x6); ("r", x9)] *
      at_ (w_heap w) t_pr [("u", x7); ("d", x8); ("r", x10)] *
      at_ (w_heap w) t_pd [("l", x3); ("r", x4); ("u", x11)] *
      at_ (w_heap w) t_pu [("l", x1); ("r", x2); ("u", x12)] *
      at_ (w_heap w) t_w [("u", x12); ("l", x9); ("d", x11); ("r", x10)])))))))))))))%sr.
Proof. exact @oddZ_value. Qed.
Print Assumptions C58_oddZ.
Example C58_oddZ_example : let w := fst (CTMRGOddFTN (tensors [[("u", 1); ("r", 2)]; [("u", 2); ("r", 1)]; [("u", 1); ("r", 1)]; [("u", 1); ("r", 1)]; [("u", 1); ("d", 2); ("r", 1)]; [("u", 1); ("d", 1); ("r", 1)]; [("l", 1); ("r", 1); ("u", 2)]; [("l", 2); ("r", 1); ("u", 1)]; [("u", 1); ("l", 1); ("d", 2); ("r", 1)]])) in
  is_net w 0 oddZ_net /\ returns (snd (contract sd 40 0 [("alu", 0); ("ald", 1); ("aru", 2); ("ard", 3); ("pl", 4); ("pr", 5); ("pd", 6); ("pu", 7); ("w", 8)] true w)) /\
  dense_legs (w_heap w) 0 [("u", 1); ("r", 2)] /\ dense_legs (w_heap w) 1 [("u", 2); ("r", 1)] /\ dense_legs (w_heap w) 2 [("u", 1); ("r", 1)] /\ dense_legs (w_heap w) 3 [("u", 1); ("r", 1)] /\ dense_legs (w_heap w) 4 [("u", 1); ("d", 2); ("r", 1)] /\ dense_legs (w_heap w) 5 [("u", 1); ("d", 1); ("r", 1)] /\ dense_legs (w_heap w) 6 [("l", 1); ("r", 1); ("u", 2)] /\ dense_legs (w_heap w) 7 [("l", 2); ("r", 1); ("u", 1)] /\ dense_legs (w_heap w) 8 [("u", 1); ("l", 1); ("d", 2); ("r", 1)].
Proof. example (@oddZ_made). Qed.
(** two rows of a column of two, times their transposed *)
Theorem C58_horizontal_l : forall A (HA : SR A) symdiff, symdiff_ok symdiff -> forall fuel (w : world A) f w' t t_ul t_ur t_dr t_dl D1 D2 D3 D4 D5 D6 E1 E2 E3 E4,
  contract symdiff fuel f [("ul", t_ul); ("ur", t_ur); ("dr", t_dr); ("dl", t_dl)] true w = (w', Ok t) -> is_net w f horizontal_l_net ->
  dense_legs (w_heap w) t_ul [("u", D5); ("l", E1); ("d", D1); ("r", D2)] ->
  dense_legs (w_heap w) t_ur [("u", D5); ("l", E2); ("d", D3); ("r", D2)] ->
  dense_legs (w_heap w) t_dr [("u", D3); ("l", E3); ("d", D6); ("r", D4)] ->
  dense_legs (w_heap w) t_dl [("u", D1); ("l", E4); ("d", D6); ("r", D4)] ->
  dense_legs (w_heap w') t [("r", E2 * E3); ("l", E1 * E4)] /\ is_net w' f horizontal_l_net /\
  forall i1 i2 i3 i4, i1 < E1 -> i2 < E2 -> i3 < E3 -> i4 < E4 -> 
    at_ (w_heap w') t [("r", i2 * E3 + i3); ("l", i1 * E4 + i4)] =
    (sumN D1 (fun x1 => sumN D2 (fun x2 => sumN D3 (fun x3 => sumN D4 (fun x4 => sumN D5 (fun x5 => sumN D6 (fun x6 =>
      at_ (w_heap w) t_ul [("u", x5); ("l", i1); ("d", x1); ("r", x2)] *
      at_ (w_heap w) t_ur [("u", x5); ("l", i2); ("d", x3); ("r", x2)] *
      at_ (w_heap w) t_dr [("u", x3); ("l", i3); ("d", x6); ("r", x4)] *
      at_ (w_heap w) t_dl [("u", x1); ("l", i4); ("d", x6); ("r", x4)])))))))%sr.
Proof. exact @horizontal_l_value. Qed.
Print Assumptions C58_horizontal_l.
Example C58_horizontal_l_example : let w := fst (squareHorizontalContractFTN "l" (tensors [[("u", 2); ("l", 2); ("d", 2); ("r", 2)]; [("u", 2); ("l", 1); ("d", 1); ("r", 2)]; [("u", 1); ("l", 2); ("d", 2); ("r", 2)]; [("u", 2); ("l", 1); ("d", 2); ("r", 2)]])) in
  is_net w 0 horizontal_l_net /\ returns (snd (contract sd 40 0 [("ul", 0); ("ur", 1); ("dr", 2); ("dl", 3)] true w)) /\
  dense_legs (w_heap w) 0 [("u", 2); ("l", 2); ("d", 2); ("r", 2)] /\ dense_legs (w_heap w) 1 [("u", 2); ("l", 1); ("d", 1); ("r", 2)] /\ dense_legs (w_heap w) 2 [("u", 1); ("l", 2); ("d", 2); ("r", 2)] /\ dense_legs (w_heap w) 3 [("u", 2); ("l", 1); ("d", 2); ("r", 2)].
Proof. example (@horizontal_l_made). Qed.
(** two rows of a column of two, times their transposed *)
Theorem C58_horizontal_r : forall A (HA : SR A) symdiff, symdiff_ok symdiff -> forall fuel (w : world A) f w' t t_ul t_ur t_dr t_dl D1 D2 D3 D4 D5 D6 E1 E2 E3 E4,
  contract symdiff fuel f [("ul", t_ul); ("ur", t_ur); ("dr", t_dr); ("dl", t_dl)] true w = (w', Ok t) -> is_net w f horizontal_r_net ->
  dense_legs (w_heap w) t_ul [("u", D5); ("l", D2); ("d", D1); ("r", E1)] ->
  dense_legs (w_heap w) t_ur [("u", D5); ("l", D2); ("d", D3); ("r", E2)] ->
  dense_legs (w_heap w) t_dr [("u", D3); ("l", D4); ("d", D6); ("r", E3)] ->
  dense_legs (w_heap w) t_dl [("u", D1); ("l", D4); ("d", D6); ("r", E4)] ->
  dense_legs (w_heap w') t [("l", E1 * E4); ("r", E2 * E3)] /\ is_net w' f horizontal_r_net /\
  forall i1 i2 i3 i4, i1 < E1 -> i2 < E2 -> i3 < E3 -> i4 < E4 -> 
    at_ (w_heap w') t [("l", i1 * E4 + i4); ("r", i2 * E3 + i3)] =
    (sumN D1 (fun x1 => sumN D2 (fun x2 => sumN D3 (fun x3 => sumN D4 (fun x4 => sumN D5 (fun x5 => sumN D6 (fun x6 =>
      at_ (w_heap w) t_ul [("u", x5); ("l", x2); ("d", x1); ("r", i1)] *
      at_ (w_heap w) t_ur [("u", x5); ("l", x2); ("d", x3); ("r", i2)] *
      at_ (w_heap w) t_dr [("u", x3); ("l", x4); ("d", x6); ("r", i3)] *
      at_ (w_heap w) t_dl [("u", x1); ("l", x4); ("d", x6); ("r", i4)])))))))%sr.
Proof. exact @horizontal_r_value. Qed.
Print Assumptions C58_horizontal_r.
Example C58_horizontal_r_example : let w := fst (squareHorizontalContractFTN "r" (tensors [[("u", 2); ("l", 2); ("d", 2); ("r", 2)]; [("u", 2); ("l", 2); ("d", 1); ("r", 1)]; [("u", 1); ("l", 2); ("d", 2); ("r", 2)]; [("u", 2); ("l", 2); ("d", 2); ("r", 1)]])) in
  is_net w 0 horizontal_r_net /\ returns (snd (contract sd 40 0 [("ul", 0); ("ur", 1); ("dr", 2); ("dl", 3)] true w)) /\
  dense_legs (w_heap w) 0 [("u", 2); ("l", 2); ("d", 2); ("r", 2)] /\ dense_legs (w_heap w) 1 [("u", 2); ("l", 2); ("d", 1); ("r", 1)] /\ dense_legs (w_heap w) 2 [("u", 1); ("l", 2); ("d", 2); ("r", 2)] /\ dense_legs (w_heap w) 3 [("u", 2); ("l", 2); ("d", 2); ("r", 1)].
Proof. example (@horizontal_r_made). Qed.
(** two columns of a row of two, times their transposed *)
Theorem C58_vertical_u : forall A (HA : SR A) symdiff, symdiff_ok symdiff -> forall fuel (w : world A) f w' t t_ul t_ur t_dr t_dl D1 D2 D3 D4 D5 D6 E1 E2 E3 E4,
  contract symdiff fuel f [("ul", t_ul); ("ur", t_ur); ("dr", t_dr); ("dl", t_dl)] true w = (w', Ok t) -> is_net w f vertical_u_net ->
  dense_legs (w_heap w) t_ul [("u", E1); ("l", D5); ("d", D1); ("r", D2)] ->
  dense_legs (w_heap w) t_ur [("u", E2); ("l", D2); ("d", D3); ("r", D6)] ->
  dense_legs (w_heap w) t_dr [("u", E3); ("l", D4); ("d", D3); ("r", D6)] ->
  dense_legs (w_heap w) t_dl [("u", E4); ("l", D5); ("d", D1); ("r", D4)] ->
  dense_legs (w_heap w') t [("d", E4 * E3); ("u", E1 * E2)] /\ is_net w' f vertical_u_net /\
  forall i1 i2 i3 i4, i1 < E1 -> i2 < E2 -> i3 < E3 -> i4 < E4 -> 
    at_ (w_heap w') t [("d", i4 * E3 + i3); ("u", i1 * E2 + i2)] =
    (sumN D1 (fun x1 => sumN D2 (fun x2 => sumN D3 (fun x3 => sumN D4 (fun x4 => sumN D5 (fun x5 => sumN D6 (fun x6 =>
      at_ (w_heap w) t_ul [("u", i1); ("l", x5); ("d", x1); ("r", x2)] *
      at_ (w_heap w) t_ur [("u", i2); ("l", x2); ("d", x3); ("r", x6)] *
      at_ (w_heap w) t_dr [("u", i3); ("l", x4); ("d", x3); ("r", x6)] *
      at_ (w_heap w) t_dl [("u", i4); ("l", x5); ("d", x1); ("r", x4)])))))))%sr.
Proof. exact @vertical_u_value. Qed.
Print Assumptions C58_vertical_u.
Example C58_vertical_u_example : let w := fst (squareVerticalContractFTN "u" (tensors [[("u", 2); ("l", 2); ("d", 2); ("r", 2)]; [("u", 1); ("l", 2); ("d", 1); ("r", 2)]; [("u", 2); ("l", 2); ("d", 1); ("r", 2)]; [("u", 1); ("l", 2); ("d", 2); ("r", 2)]])) in
  is_net w 0 vertical_u_net /\ returns (snd (contract sd 40 0 [("ul", 0); ("ur", 1); ("dr", 2); ("dl", 3)] true w)) /\
  dense_legs (w_heap w) 0 [("u", 2); ("l", 2); ("d", 2); ("r", 2)] /\ dense_legs (w_heap w) 1 [("u", 1); ("l", 2); ("d", 1); ("r", 2)] /\ dense_legs (w_heap w) 2 [("u", 2); ("l", 2); ("d", 1); ("r", 2)] /\ dense_legs (w_heap w) 3 [("u", 1); ("l", 2); ("d", 2); ("r", 2)].
Proof. example (@vertical_u_made). Qed.
(** two columns of a row of two, times their transposed *)
Theorem C58_vertical_d : forall A (HA : SR A) symdiff, symdiff_ok symdiff -> forall fuel (w : world A) f w' t t_ul t_ur t_dr t_dl D1 D2 D3 D4 D5 D6 E1 E2 E3 E4,
  contract symdiff fuel f [("ul", t_ul); ("ur", t_ur); ("dr", t_dr); ("dl", t_dl)] true w = (w', Ok t) -> is_net w f vertical_d_net ->
  dense_legs (w_heap w) t_ul [("u", D1); ("l", D5); ("d", E1); ("r", D2)] ->
  dense_legs (w_heap w) t_ur [("u", D3); ("l", D2); ("d", E2); ("r", D6)] ->
  dense_legs (w_heap w) t_dr [("u", D3); ("l", D4); ("d", E3); ("r", D6)] ->
  dense_legs (w_heap w) t_dl [("u", D1); ("l", D5); ("d", E4); ("r", D4)] ->
  dense_legs (w_heap w') t [("u", E1 * E2); ("d", E4 * E3)] /\ is_net w' f vertical_d_net /\
  forall i1 i2 i3 i4, i1 < E1 -> i2 < E2 -> i3 < E3 -> i4 < E4 -> 
    at_ (w_heap w') t [("u", i1 * E2 + i2); ("d", i4 * E3 + i3)] =
    (sumN D1 (fun x1 => sumN D2 (fun x2 => sumN D3 (fun x3 => sumN D4 (fun x4 => sumN D5 (fun x5 => sumN D6 (fun x6 =>
      at_ (w_heap w) t_ul [("u", x1); ("l", x5); ("d", i1); ("r", x2)] *
      at_ (w_heap w) t_ur [("u", x3); ("l", x2); ("d", i2); ("r", x6)] *
      at_ (w_heap w) t_dr [("u", x3); ("l", x4); ("d", i3); ("r", x6)] *
      at_ (w_heap w) t_dl [("u", x1); ("l", x5); ("d", i4); ("r", x4)])))))))%sr.
Proof. exact @vertical_d_value. Qed.
Print Assumptions C58_vertical_d.
Example C58_vertical_d_example : let w := fst (squareVerticalContractFTN "d" (tensors [[("u", 2); ("l", 2); ("d", 2); ("r", 2)]; [("u", 1); ("l", 2); ("d", 1); ("r", 2)]; [("u", 1); ("l", 2); ("d", 2); ("r", 2)]; [("u", 2); ("l", 2); ("d", 1); ("r", 2)]])) in
  is_net w 0 vertical_d_net /\ returns (snd (contract sd 40 0 [("ul", 0); ("ur", 1); ("dr", 2); ("dl", 3)] true w)) /\
  dense_legs (w_heap w) 0 [("u", 2); ("l", 2); ("d", 2); ("r", 2)] /\ dense_legs (w_heap w) 1 [("u", 1); ("l", 2); ("d", 1); ("r", 2)] /\ dense_legs (w_heap w) 2 [("u", 1); ("l", 2); ("d", 2); ("r", 2)] /\ dense_legs (w_heap w) 3 [("u", 2); ("l", 2); ("d", 1); ("r", 2)].
Proof. example (@vertical_d_made). Qed.
(** one tensor on top of another, with projected sides *)
Theorem C58_hotrg_h : forall A (HA : SR A) symdiff, symdiff_ok symdiff -> forall fuel (w : world A) f w' t t_u t_d t_l t_r D1 D2 D3 D4 D5 E1 E2 E3 E4,
  contract symdiff fuel f [("u", t_u); ("d", t_d); ("l", t_l); ("r", t_r)] true w = (w', Ok t) -> is_net w f hotrg_h_net ->
  dense_legs (w_heap w) t_u [("u", E1); ("l", D1); ("d", D5); ("r", D2)] ->
  dense_legs (w_heap w) t_d [("u", D5); ("l", D3); ("d", E2); ("r", D4)] ->
  dense_legs (w_heap w) t_l [("u", D1); ("d", D3); ("o", E3)] ->
  dense_legs (w_heap w) t_r [("u", D2); ("d", D4); ("o", E4)] ->
  dense_legs (w_heap w') t [("u", E1); ("d", E2); ("l", E3); ("r", E4)] /\ is_net w' f hotrg_h_net /\
  forall i1 i2 i3 i4, i1 < E1 -> i2 < E2 -> i3 < E3 -> i4 < E4 -> 
    at_ (w_heap w') t [("u", i1); ("d", i2); ("l", i3); ("r", i4)] =
    (sumN D1 (fun x1 => sumN D2 (fun x2 => sumN D3 (fun x3 => sumN D4 (fun x4 => sumN D5 (fun x5 =>
      at_ (w_heap w) t_u [("u", i1); ("l", x1); ("d", x5); ("r", x2)] *
      at_ (w_heap w) t_d [("u", x5); ("l", x3); ("d", i2); ("r", x4)] *
      at_ (w_heap w) t_l [("u", x1); ("d", x3); ("o", i3)] *
      at_ (w_heap w) t_r [("u", x2); ("d", x4); ("o", i4)]))))))%sr.
Proof. exact @hotrg_h_value. Qed.
Print Assumptions C58_hotrg_h.
Example C58_hotrg_h_example : let w := fst (HOTRGHorizontalContractFTN (tensors [[("u", 2); ("l", 2); ("d", 2); ("r", 2)]; [("u", 2); ("l", 1); ("d", 1); ("r", 2)]; [("u", 2); ("d", 1); ("o", 2)]; [("u", 2); ("d", 2); ("o", 1)]])) in
  is_net w 0 hotrg_h_net /\ returns (snd (contract sd 40 0 [("u", 0); ("d", 1); ("l", 2); ("r", 3)] true w)) /\
  dense_legs (w_heap w) 0 [("u", 2); ("l", 2); ("d", 2); ("r", 2)] /\ dense_legs (w_heap w) 1 [("u", 2); ("l", 1); ("d", 1); ("r", 2)] /\ dense_legs (w_heap w) 2 [("u", 2); ("d", 1); ("o", 2)] /\ dense_legs (w_heap w) 3 [("u", 2); ("d", 2); ("o", 1)].
Proof. example (@hotrg_h_made). Qed.
(** one tensor left of another, with projected top and bottom *)
Theorem C58_hotrg_v : forall A (HA : SR A) symdiff, symdiff_ok symdiff -> forall fuel (w : world A) f w' t t_u t_d t_l t_r D1 D2 D3 D4 D5 E1 E2 E3 E4,
  contract symdiff fuel f [("u", t_u); ("d", t_d); ("l", t_l); ("r", t_r)] true w = (w', Ok t) -> is_net w f hotrg_v_net ->
  dense_legs (w_heap w) t_u [("l", D1); ("r", D2); ("o", E1)] ->
  dense_legs (w_heap w) t_d [("l", D3); ("r", D4); ("o", E2)] ->
  dense_legs (w_heap w) t_l [("u", D1); ("l", E3); ("d", D3); ("r", D5)] ->
  dense_legs (w_heap w) t_r [("u", D2); ("l", D5); ("d", D4); ("r", E4)] ->
  dense_legs (w_heap w') t [("u", E1); ("d", E2); ("l", E3); ("r", E4)] /\ is_net w' f hotrg_v_net /\
  forall i1 i2 i3 i4, i1 < E1 -> i2 < E2 -> i3 < E3 -> i4 < E4 -> 
    at_ (w_heap w') t [("u", i1); ("d", i2); ("l", i3); ("r", i4)] =
    (sumN D1 (fun x1 => sumN D2 (fun x2 => sumN D3 (fun x3 => sumN D4 (fun x4 => sumN D5 (fun x5 =>
      at_ (w_heap w) t_u [("l", x1); ("r", x2); ("o", i1)] *
      at_ (w_heap w) t_d [("l", x3); ("r", x4); ("o", i2)] *
      at_ (w_heap w) t_l [("u", x1); ("l", i3); ("d", x3); ("r", x5)] *
      at_ (w_heap w) t_r [("u", x2); ("l", x5); ("d", x4); ("r", i4)]))))))%sr.
Proof. exact @hotrg_v_value. Qed.
Print Assumptions C58_hotrg_v.
Example C58_hotrg_v_example : let w := fst (HOTRGVerticalContractFTN (tensors [[("l", 2); ("r", 2); ("o", 2)]; [("l", 1); ("r", 2); ("o", 1)]; [("u", 2); ("l", 2); ("d", 1); ("r", 2)]; [("u", 2); ("l", 2); ("d", 2); ("r", 1)]])) in
  is_net w 0 hotrg_v_net /\ returns (snd (contract sd 40 0 [("u", 0); ("d", 1); ("l", 2); ("r", 3)] true w)) /\
  dense_legs (w_heap w) 0 [("l", 2); ("r", 2); ("o", 2)] /\ dense_legs (w_heap w) 1 [("l", 1); ("r", 2); ("o", 1)] /\ dense_legs (w_heap w) 2 [("u", 2); ("l", 2); ("d", 1); ("r", 2)] /\ dense_legs (w_heap w) 3 [("u", 2); ("l", 2); ("d", 2); ("r", 1)].
Proof. example (@hotrg_v_made). Qed.
(** the environment of a projector of the tensor network renormalization *)
Theorem C58_tnr_env : forall A (HA : SR A) symdiff, symdiff_ok symdiff -> forall fuel (w : world A) f w' t t_uul t_uur t_udl t_udr t_dul t_dur t_ddl t_ddr D1 D2 D3 D4 D5 D6 D7 D8 D9 D10 D11 D12 D13 D14 E1 E2 E3 E4,
  contract symdiff fuel f [("uul", t_uul); ("uur", t_uur); ("udl", t_udl); ("udr", t_udr); ("dul", t_dul); ("dur", t_dur); ("ddl", t_ddl); ("ddr", t_ddr)] true w = (w', Ok t) -> is_net w f tnr_env_net ->
  dense_legs (w_heap w) t_uul [("u", E1); ("l", E2); ("d", D12); ("r", D11)] ->
  dense_legs (w_heap w) t_uur [("u", D8); ("l", D7); ("d", D9); ("r", D11)] ->
  dense_legs (w_heap w) t_udl [("u", D12); ("l", D5); ("d", D2); ("r", D1)] ->
  dense_legs (w_heap w) t_udr [("u", D9); ("l", D5); ("d", D4); ("r", D3)] ->
  dense_legs (w_heap w) t_dul [("u", D14); ("l", D6); ("d", D2); ("r", D1)] ->
  dense_legs (w_heap w) t_dur [("u", D10); ("l", D6); ("d", D4); ("r", D3)] ->
  dense_legs (w_heap w) t_ddl [("u", E3); ("l", E4); ("d", D14); ("r", D13)] ->
  dense_legs (w_heap w) t_ddr [("u", D8); ("l", D7); ("d", D10); ("r", D13)] ->
  dense_legs (w_heap w') t [("2", E4 * E3); ("1", E2 * E1)] /\ is_net w' f tnr_env_net /\
  forall i1 i2 i3 i4, i1 < E1 -> i2 < E2 -> i3 < E3 -> i4 < E4 -> 
    at_ (w_heap w') t [("2", i4 * E3 + i3); ("1", i2 * E1 + i1)] =
    (sumN D1 (fun x1 => sumN D2 (fun x2 => sumN D3 (fun x3 => sumN D4 (fun x4 => sumN D5 (fun x5 => sumN D6 (fun x6 => sumN D7 (fun x7 => sumN D8 (fun x8 => sumN D9 (fun x9 => sumN D10 (fun x10 => sumN D11 (fun x11 => sumN D12 (fun x12 => sumN D13 (fun x13 => sumN D14 (fun x14 =>
      at_ (w_heap w) t_uul [("u", i1); ("l", i2); ("d", x12); ("r", x11)] *
      at_ (w_heap w) t_uur [("u", x8); ("l", x7); ("d", x9); ("r", x11)] *
      at_ (w_heap w) t_udl [("u", x12); ("l", x5); ("d", x2); ("r", x1)] *
      at_ (w_heap w) t_udr [("u", x9); ("l", x5); ("d", x4); ("r", x3)] *
      at_ (w_heap w) t_dul [("u", x14); ("l", x6); ("d", x2); ("r", x1)] *
      at_ (w_heap w) t_dur [("u", x10); ("l", x6); ("d", x4); ("r", x3)] *
      at_ (w_heap w) t_ddl [("u", i3); ("l", i4); ("d", x14); ("r", x13)] *
      at_ (w_heap w) t_ddr [("u", x8); ("l", x7); ("d", x10); ("r", x13)])))))))))))))))%sr.
Proof. exact @tnr_env_value. Qed.
Print Assumptions C58_tnr_env.
Example C58_tnr_env_example : let w := fst (EvenblyTNRQEnvFTN (tensors [[("u", 2); ("l", 1); ("d", 1); ("r", 2)]; [("u", 1); ("l", 1); ("d", 1); ("r", 2)]; [("u", 1); ("l", 1); ("d", 1); ("r", 2)]; [("u", 1); ("l", 1); ("d", 1); ("r", 1)]; [("u", 1); ("l", 2); ("d", 1); ("r", 2)]; [("u", 1); ("l", 2); ("d", 1); ("r", 1)]; [("u", 2); ("l", 1); ("d", 1); ("r", 1)]; [("u", 1); ("l", 1); ("d", 1); ("r", 1)]])) in
  is_net w 0 tnr_env_net /\ returns (snd (contract sd 40 0 [("uul", 0); ("uur", 1); ("udl", 2); ("udr", 3); ("dul", 4); ("dur", 5); ("ddl", 6); ("ddr", 7)] true w)) /\
  dense_legs (w_heap w) 0 [("u", 2); ("l", 1); ("d", 1); ("r", 2)] /\ dense_legs (w_heap w) 1 [("u", 1); ("l", 1); ("d", 1); ("r", 2)] /\ dense_legs (w_heap w) 2 [("u", 1); ("l", 1); ("d", 1); ("r", 2)] /\ dense_legs (w_heap w) 3 [("u", 1); ("l", 1); ("d", 1); ("r", 1)] /\ dense_legs (w_heap w) 4 [("u", 1); ("l", 2); ("d", 1); ("r", 2)] /\ dense_legs (w_heap w) 5 [("u", 1); ("l", 2); ("d", 1); ("r", 1)] /\ dense_legs (w_heap w) 6 [("u", 2); ("l", 1); ("d", 1); ("r", 1)] /\ dense_legs (w_heap w) 7 [("u", 1); ("l", 1); ("d", 1); ("r", 1)].
Proof. example (@tnr_env_made). Qed.
(** the general form: the result of any network in terms of names.  [expected] are its legs, and its entries are the sum over the links
    of the products of the entries of the tensors; the network can be used again *)
Theorem C58_named : forall A (HA : SR A) symdiff, symdiff_ok symdiff -> forall fuel (w : world A) f d b w' t names links out after D N,
  contract symdiff fuel f d b w = (w', Ok t) -> ftn_is w f names links out after -> usable (w_heap w) d -> has_ports (w_heap w) D d N ->
  plinks_ok links -> distinct_names N links out after ->
  ((forall p, In p d -> t_diag (tens (w_heap w) (snd p)) = false) \/ f_seq (w_ftn w f) = None) ->
  has_value (w_heap w') t D (expected N links out after b) (psum D links (pprod (w_heap w) d)) /\ ftn_is w' f names links out after /\
  t_like (tens (w_heap w') t) = false /\ t_diag (tens (w_heap w') t) = forallb (fun p => t_diag (tens (w_heap w) (snd p))) d.
Proof. exact @contract_named. Qed.
Print Assumptions C58_named.
(** what is done elsewhere leaves a network ready for use: contractions of other networks, and anything that only touches tensors *)
Theorem C58_kept : forall A (HA : SR A) symdiff fuel (w : world A) f N, is_net w f N ->
  (forall g d b, g <> f -> is_net (fst (contract symdiff fuel g d b w)) f N) /\
  (forall h, is_net (@mkWorld A h (w_names w) (w_nnames w) (w_ftn w) (w_nftn w)) f N).
Proof. exact @is_net_kept. Qed.
Print Assumptions C58_kept.
(** opposite directions: an involution that keeps horizontal and vertical apart, and the two networks that depend on a direction refuse all others *)
Theorem C58_directions :
  (forall x y, oppositeSingleDirection x = Ok y -> oppositeSingleDirection y = Ok x /\ y <> x /\ In x ["l"; "r"; "u"; "d"] /\ (In x ["l"; "r"] <-> In y ["l"; "r"])) /\
  (forall x, ~ In x ["l"; "r"; "u"; "d"] -> oppositeSingleDirection x = Err AssertionError) /\
  (forall x y, oppositeDirection x = Ok y -> oppositeDirection y = Ok x /\ String.length y = String.length x) /\
  (forall A (w : world A) d, ~ In d ["l"; "r"] -> squareHorizontalContractFTN d w = (w, Err AssertionError)) /\
  (forall A (w : world A) d, ~ In d ["u"; "d"] -> squareVerticalContractFTN d w = (w, Err AssertionError)).
Proof. exact (conj opposite_single (conj opposite_rejects (conj opposite_word (conj horizontal_rejects vertical_rejects)))). Qed.
Print Assumptions C58_directions.
Example C58_directions_example : oppositeDirection "uld" = Ok "dru" /\ oppositeDirection "ux" = Err AssertionError.
Proof. split; reflexivity. Qed.
