(** Property theorems for the networks of examples/TNR.py (C70). *)
From Coq Require Import List Arith Bool String ZArith Lia Permutation.
From Verif Require Import Base Sums NdModel HeapModel TensorModel TensorSpec NetSpec ContractModel SearchModel SearchSpec GraphModel NetGraphModel FtnModel FtnSpec FtnNetSpec
  NamedSpec NetsModel NetsSpec NamedProofs NetsProofs SearchProps NetsProps TnrModel TnrSpec TnrProofs.
Import ListNotations.
Local Open Scope nat_scope.
Local Open Scope string_scope.
Local Open Scope list_scope.

(** every function makes a new network with the structure given, and touches nothing else *)
Theorem C70_networks : forall A,
  (forall w : world A, exists w', createQxAFTN w = (w', Ok (w_nftn w)) /\ made_net w w' (w_nftn w) tnr_qa_net) /\
  (forall w : world A, exists w', createCFTN w = (w', Ok (w_nftn w)) /\ made_net w w' (w_nftn w) tnr_cc4_net) /\
  (forall w : world A, exists w', createCCFTN w = (w', Ok (w_nftn w)) /\ made_net w w' (w_nftn w) tnr_dub_net) /\
  (forall w : world A, exists w', createSCEnvSFTN w = (w', Ok (w_nftn w)) /\ made_net w w' (w_nftn w) tnr_senv_net).
Proof. exact @tnr_networks_made. Qed.
Print Assumptions C70_networks.

(** a projector is put on two legs of the tensor *)
Theorem C70_qa : forall A (HA : SR A) symdiff, symdiff_ok symdiff -> forall fuel (w : world A) f w' t t_q t_A D1 D2 E1 E2 E3,
  contract symdiff fuel f [("q", t_q); ("A", t_A)] true w = (w', Ok t) -> is_net w f tnr_qa_net ->
  dense_legs (w_heap w) t_q [("h", D1); ("v", D2); ("o", E1)] ->
  dense_legs (w_heap w) t_A [("l", D1); ("u", D2); ("r", E2); ("d", E3)] ->
  dense_legs (w_heap w') t [("o", E1); ("h", E2); ("v", E3)] /\ is_net w' f tnr_qa_net /\
  forall i1 i2 i3, i1 < E1 -> i2 < E2 -> i3 < E3 ->
    at_ (w_heap w') t [("o", i1); ("h", i2); ("v", i3)] =
    (sumN D1 (fun x1 => sumN D2 (fun x2 =>
      at_ (w_heap w) t_q [("h", x1); ("v", x2); ("o", i1)] *
      at_ (w_heap w) t_A [("l", x1); ("u", x2); ("r", i2); ("d", i3)])))%sr.
Proof. exact @tnr_qa_value. Qed.
Print Assumptions C70_qa.
Example C70_qa_example : let w := fst (createQxAFTN (tensors [[("h", 2); ("v", 1); ("o", 2)]; [("l", 2); ("u", 1); ("r", 2); ("d", 2)]])) in
  is_net w 0 tnr_qa_net /\ returns (snd (contract sd 40 0 [("q", 0); ("A", 1)] true w)) /\
  dense_legs (w_heap w) 0 [("h", 2); ("v", 1); ("o", 2)] /\ dense_legs (w_heap w) 1 [("l", 2); ("u", 1); ("r", 2); ("d", 2)].
Proof. example (@tnr_qa_made). Qed.
(** four of them around a plaquette *)
Theorem C70_cc4 : forall A (HA : SR A) symdiff, symdiff_ok symdiff -> forall fuel (w : world A) f w' t t_ul t_ur t_dl t_dr D1 D2 D3 D4 E1 E2 E3 E4,
  contract symdiff fuel f [("ul", t_ul); ("ur", t_ur); ("dl", t_dl); ("dr", t_dr)] true w = (w', Ok t) -> is_net w f tnr_cc4_net ->
  dense_legs (w_heap w) t_ul [("v", D1); ("h", D3); ("o", E1)] ->
  dense_legs (w_heap w) t_ur [("v", D2); ("h", D3); ("o", E2)] ->
  dense_legs (w_heap w) t_dl [("v", D1); ("h", D4); ("o", E3)] ->
  dense_legs (w_heap w) t_dr [("v", D2); ("h", D4); ("o", E4)] ->
  dense_legs (w_heap w') t [("ul", E1); ("ur", E2); ("dl", E3); ("dr", E4)] /\ is_net w' f tnr_cc4_net /\
  forall i1 i2 i3 i4, i1 < E1 -> i2 < E2 -> i3 < E3 -> i4 < E4 ->
    at_ (w_heap w') t [("ul", i1); ("ur", i2); ("dl", i3); ("dr", i4)] =
    (sumN D1 (fun x1 => sumN D2 (fun x2 => sumN D3 (fun x3 => sumN D4 (fun x4 =>
      at_ (w_heap w) t_ul [("v", x1); ("h", x3); ("o", i1)] *
      at_ (w_heap w) t_ur [("v", x2); ("h", x3); ("o", i2)] *
      at_ (w_heap w) t_dl [("v", x1); ("h", x4); ("o", i3)] *
      at_ (w_heap w) t_dr [("v", x2); ("h", x4); ("o", i4)])))))%sr.
Proof. exact @tnr_cc4_value. Qed.
Print Assumptions C70_cc4.
Example C70_cc4_example : let w := fst (createCFTN (tensors [[("v", 2); ("h", 2); ("o", 2)]; [("v", 1); ("h", 2); ("o", 1)]; [("v", 2); ("h", 2); ("o", 2)]; [("v", 1); ("h", 2); ("o", 2)]])) in
  is_net w 0 tnr_cc4_net /\ returns (snd (contract sd 40 0 [("ul", 0); ("ur", 1); ("dl", 2); ("dr", 3)] true w)) /\
  dense_legs (w_heap w) 0 [("v", 2); ("h", 2); ("o", 2)] /\ dense_legs (w_heap w) 1 [("v", 1); ("h", 2); ("o", 1)] /\ dense_legs (w_heap w) 2 [("v", 2); ("h", 2); ("o", 2)] /\ dense_legs (w_heap w) 3 [("v", 1); ("h", 2); ("o", 2)].
Proof. example (@tnr_cc4_made). Qed.
(** two plaquettes joined at their lower corners *)
Theorem C70_dub : forall A (HA : SR A) symdiff, symdiff_ok symdiff -> forall fuel (w : world A) f w' t t_u t_d D1 D2 E1 E2 E3 E4,
  contract symdiff fuel f [("u", t_u); ("d", t_d)] true w = (w', Ok t) -> is_net w f tnr_dub_net ->
  dense_legs (w_heap w) t_u [("ul", E1); ("ur", E2); ("dl", D1); ("dr", D2)] ->
  dense_legs (w_heap w) t_d [("ul", E3); ("ur", E4); ("dl", D1); ("dr", D2)] ->
  dense_legs (w_heap w') t [("ul", E1); ("ur", E2); ("dl", E3); ("dr", E4)] /\ is_net w' f tnr_dub_net /\
  forall i1 i2 i3 i4, i1 < E1 -> i2 < E2 -> i3 < E3 -> i4 < E4 ->
    at_ (w_heap w') t [("ul", i1); ("ur", i2); ("dl", i3); ("dr", i4)] =
    (sumN D1 (fun x1 => sumN D2 (fun x2 =>
      at_ (w_heap w) t_u [("ul", i1); ("ur", i2); ("dl", x1); ("dr", x2)] *
      at_ (w_heap w) t_d [("ul", i3); ("ur", i4); ("dl", x1); ("dr", x2)])))%sr.
Proof. exact @tnr_dub_value. Qed.
Print Assumptions C70_dub.
Example C70_dub_example : let w := fst (createCCFTN (tensors [[("ul", 2); ("ur", 2); ("dl", 2); ("dr", 1)]; [("ul", 2); ("ur", 1); ("dl", 2); ("dr", 1)]])) in
  is_net w 0 tnr_dub_net /\ returns (snd (contract sd 40 0 [("u", 0); ("d", 1)] true w)) /\
  dense_legs (w_heap w) 0 [("ul", 2); ("ur", 2); ("dl", 2); ("dr", 1)] /\ dense_legs (w_heap w) 1 [("ul", 2); ("ur", 1); ("dl", 2); ("dr", 1)].
Proof. example (@tnr_dub_made). Qed.
(** the environment of the matrix s *)
Theorem C70_senv : forall A (HA : SR A) symdiff, symdiff_ok symdiff -> forall fuel (w : world A) f w' t t_CC t_ql t_qr t_u t_yl t_yr D1 D2 D3 D4 D5 D6 D7 D8 E1 E2 E3 E4,
  contract symdiff fuel f [("CC", t_CC); ("ql", t_ql); ("qr", t_qr); ("u", t_u); ("yl", t_yl); ("yr", t_yr)] true w = (w', Ok t) -> is_net w f tnr_senv_net ->
  dense_legs (w_heap w) t_CC [("ul", E1); ("ur", E2); ("dl", D1); ("dr", D2)] ->
  dense_legs (w_heap w) t_ql [("h", D3); ("v", D5); ("o", D1)] ->
  dense_legs (w_heap w) t_qr [("h", D4); ("v", D6); ("o", D2)] ->
  dense_legs (w_heap w) t_u [("ol", D6); ("or", D5); ("il", D8); ("ir", D7)] ->
  dense_legs (w_heap w) t_yl [("h", D3); ("v", D7); ("o", E3)] ->
  dense_legs (w_heap w) t_yr [("h", D4); ("v", D8); ("o", E4)] ->
  dense_legs (w_heap w') t [("ul", E1); ("ur", E2); ("dl", E3); ("dr", E4)] /\ is_net w' f tnr_senv_net /\
  forall i1 i2 i3 i4, i1 < E1 -> i2 < E2 -> i3 < E3 -> i4 < E4 ->
    at_ (w_heap w') t [("ul", i1); ("ur", i2); ("dl", i3); ("dr", i4)] =
    (sumN D1 (fun x1 => sumN D2 (fun x2 => sumN D3 (fun x3 => sumN D4 (fun x4 => sumN D5 (fun x5 => sumN D6 (fun x6 => sumN D7 (fun x7 => sumN D8 (fun x8 =>
      at_ (w_heap w) t_CC [("ul", i1); ("ur", i2); ("dl", x1); ("dr", x2)] *
      at_ (w_heap w) t_ql [("h", x3); ("v", x5); ("o", x1)] *
      at_ (w_heap w) t_qr [("h", x4); ("v", x6); ("o", x2)] *
      at_ (w_heap w) t_u [("ol", x6); ("or", x5); ("il", x8); ("ir", x7)] *
      at_ (w_heap w) t_yl [("h", x3); ("v", x7); ("o", i3)] *
      at_ (w_heap w) t_yr [("h", x4); ("v", x8); ("o", i4)])))))))))%sr.
Proof. exact @tnr_senv_value. Qed.
Print Assumptions C70_senv.
Example C70_senv_example : let w := fst (createSCEnvSFTN (tensors [[("ul", 1); ("ur", 1); ("dl", 1); ("dr", 2)]; [("h", 1); ("v", 2); ("o", 1)]; [("h", 1); ("v", 2); ("o", 2)]; [("ol", 2); ("or", 2); ("il", 1); ("ir", 1)]; [("h", 1); ("v", 1); ("o", 1)]; [("h", 1); ("v", 1); ("o", 1)]])) in
  is_net w 0 tnr_senv_net /\ returns (snd (contract sd 40 0 [("CC", 0); ("ql", 1); ("qr", 2); ("u", 3); ("yl", 4); ("yr", 5)] true w)) /\
  dense_legs (w_heap w) 0 [("ul", 1); ("ur", 1); ("dl", 1); ("dr", 2)] /\ dense_legs (w_heap w) 1 [("h", 1); ("v", 2); ("o", 1)] /\ dense_legs (w_heap w) 2 [("h", 1); ("v", 2); ("o", 2)] /\ dense_legs (w_heap w) 3 [("ol", 2); ("or", 2); ("il", 1); ("ir", 1)] /\ dense_legs (w_heap w) 4 [("h", 1); ("v", 1); ("o", 1)] /\ dense_legs (w_heap w) 5 [("h", 1); ("v", 1); ("o", 1)].
Proof. example (@tnr_senv_made). Qed.

(** With a mirror symmetric disentangler u the last network is the formula that the comment in the code gives for it. *)
Theorem C70_ncon : forall A (HA : SR A) symdiff, symdiff_ok symdiff -> forall fuel (w : world A) f w' t t_CC t_ql t_qr t_u t_yl t_yr D1 D2 D3 D4 D5 D7 E1 E2 E3 E4,
  contract symdiff fuel f [("CC", t_CC); ("ql", t_ql); ("qr", t_qr); ("u", t_u); ("yl", t_yl); ("yr", t_yr)] true w = (w', Ok t) -> is_net w f tnr_senv_net ->
  dense_legs (w_heap w) t_CC [("ul", E1); ("ur", E2); ("dl", D1); ("dr", D2)] ->
  dense_legs (w_heap w) t_ql [("h", D3); ("v", D5); ("o", D1)] -> dense_legs (w_heap w) t_qr [("h", D4); ("v", D5); ("o", D2)] ->
  dense_legs (w_heap w) t_u [("ol", D5); ("or", D5); ("il", D7); ("ir", D7)] ->
  dense_legs (w_heap w) t_yl [("h", D3); ("v", D7); ("o", E3)] -> dense_legs (w_heap w) t_yr [("h", D4); ("v", D7); ("o", E4)] ->
  mirror_symmetric (w_heap w) t_u D5 D7 ->
  forall i1 i2 i3 i4, i1 < E1 -> i2 < E2 -> i3 < E3 -> i4 < E4 ->
    at_ (w_heap w') t [("ul", i1); ("ur", i2); ("dl", i3); ("dr", i4)] = env_ncon (w_heap w) t_CC t_ql t_qr t_u t_yl t_yr D1 D2 D3 D4 D5 D7 i1 i2 i3 i4.
Proof. exact @tnr_senv_ncon. Qed.
Print Assumptions C70_ncon.
(** Without the symmetry it is not: the network links the left tensors to the right legs of u. *)
Definition env_world : world Z := fst (createSCEnvSFTN (tensors [[("ul", 1); ("ur", 1); ("dl", 1); ("dr", 2)]; [("h", 1); ("v", 2); ("o", 1)]; [("h", 1); ("v", 2); ("o", 2)]; [("ol", 2); ("or", 2); ("il", 1); ("ir", 1)]; [("h", 1); ("v", 1); ("o", 1)]; [("h", 1); ("v", 1); ("o", 1)]])).
Example env_ready : is_net env_world 0 tnr_senv_net /\ (dense_legs (w_heap env_world) 0 [("ul", 1); ("ur", 1); ("dl", 1); ("dr", 2)] /\ dense_legs (w_heap env_world) 1 [("h", 1); ("v", 2); ("o", 1)] /\ dense_legs (w_heap env_world) 2 [("h", 1); ("v", 2); ("o", 2)] /\ dense_legs (w_heap env_world) 3 [("ol", 2); ("or", 2); ("il", 1); ("ir", 1)] /\ dense_legs (w_heap env_world) 4 [("h", 1); ("v", 1); ("o", 1)] /\ dense_legs (w_heap env_world) 5 [("h", 1); ("v", 1); ("o", 1)]).
Proof. split; [exact (proj1 C70_senv_example)|exact (proj2 (proj2 C70_senv_example))]. Qed.
Example env_value : match contract sd 40 0 [("CC", 0); ("ql", 1); ("qr", 2); ("u", 3); ("yl", 4); ("yr", 5)] true env_world with
  (w', Ok t) => at_ (w_heap w') t [("ul", 0); ("ur", 0); ("dl", 0); ("dr", 0)] = 146%Z | _ => False end.
Proof. vm_compute. reflexivity. Qed.
Example env_formula : env_ncon (w_heap env_world) 0 1 2 3 4 5 1 2 1 1 2 1 0 0 0 0 = 145%Z.
Proof. vm_compute. reflexivity. Qed.
Theorem C70_ncon_refuted : exists (w w' : world Z) t, is_net w 0 tnr_senv_net /\
  contract sd 40 0 [("CC", 0); ("ql", 1); ("qr", 2); ("u", 3); ("yl", 4); ("yr", 5)] true w = (w', Ok t) /\
  (dense_legs (w_heap w) 0 [("ul", 1); ("ur", 1); ("dl", 1); ("dr", 2)] /\ dense_legs (w_heap w) 1 [("h", 1); ("v", 2); ("o", 1)] /\ dense_legs (w_heap w) 2 [("h", 1); ("v", 2); ("o", 2)] /\ dense_legs (w_heap w) 3 [("ol", 2); ("or", 2); ("il", 1); ("ir", 1)] /\ dense_legs (w_heap w) 4 [("h", 1); ("v", 1); ("o", 1)] /\ dense_legs (w_heap w) 5 [("h", 1); ("v", 1); ("o", 1)]) /\
  at_ (w_heap w') t [("ul", 0); ("ur", 0); ("dl", 0); ("dr", 0)] <> env_ncon (w_heap w) 0 1 2 3 4 5 1 2 1 1 2 1 0 0 0 0.
Proof.
  exists env_world. destruct env_ready as (X1 & X2). pose proof env_value as H. destruct (contract sd 40 0 [("CC", 0); ("ql", 1); ("qr", 2); ("u", 3); ("yl", 4); ("yr", 5)] true env_world) as [w' [t|e]]; [|destruct H].
  exists w', t. split; [exact X1|]. split; [reflexivity|]. split; [exact X2|]. rewrite H, env_formula. discriminate.
Qed.
Print Assumptions C70_ncon_refuted.
(** a symmetric u: legs of dimension 1 outside, one number *)
Example C70_ncon_example : let w := fst (createSCEnvSFTN (tensors [[("ul", 2); ("ur", 2); ("dl", 2); ("dr", 1)]; [("h", 2); ("v", 1); ("o", 2)]; [("h", 2); ("v", 1); ("o", 1)];
    [("ol", 1); ("or", 1); ("il", 1); ("ir", 1)]; [("h", 2); ("v", 1); ("o", 1)]; [("h", 2); ("v", 1); ("o", 2)]])) in
  is_net w 0 tnr_senv_net /\ returns (snd (contract sd 40 0 [("CC", 0); ("ql", 1); ("qr", 2); ("u", 3); ("yl", 4); ("yr", 5)] true w)) /\ mirror_symmetric (w_heap w) 3 1 1.
Proof.
  cbv zeta. split; [match goal with |- is_net (fst (_ ?w)) _ _ => destruct (@tnr_senv_made Z w) as (w1 & E & MN); rewrite E; exact (ma_is _ _ _ _ _ _ _ MN) end|].
  split; [vm_compute; exact I|]. intros a b c d Ha Hb Hc Hd. assert (a = b) as -> by lia. assert (c = d) as -> by lia. reflexivity.
Qed.
