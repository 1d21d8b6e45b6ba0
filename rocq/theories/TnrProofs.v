(** The networks of examples/TNR.py: what they are and what they compute (C70). *)
From Coq Require Import List Arith Bool String Lia Permutation.
From Verif Require Import Base Sums NdModel HeapModel TensorModel TensorSpec NetSpec ContractModel SearchModel SearchSpec GraphModel NetGraphModel FtnModel FtnSpec FtnNetSpec
  NamedSpec NetsModel NetsSpec TensorProofs FtnProofs NamedProofs NetsProofs TnrModel TnrSpec.
Import ListNotations.
Local Open Scope nat_scope.
Local Open Scope string_scope.
Local Open Scope list_scope.

Section Made.
Context {A : Type} {HA : SR A}.
Notation world := (world A).
Lemma tnr_qa_made (w : world) : exists w', createQxAFTN w = (w', Ok (w_nftn w)) /\ made_net w w' (w_nftn w) tnr_qa_net.
Proof. unfold createQxAFTN. build. Qed.
Lemma tnr_cc4_made (w : world) : exists w', createCFTN w = (w', Ok (w_nftn w)) /\ made_net w w' (w_nftn w) tnr_cc4_net.
Proof. unfold createCFTN. build. Qed.
Lemma tnr_dub_made (w : world) : exists w', createCCFTN w = (w', Ok (w_nftn w)) /\ made_net w w' (w_nftn w) tnr_dub_net.
Proof. unfold createCCFTN. build. Qed.
Lemma tnr_senv_made (w : world) : exists w', createSCEnvSFTN w = (w', Ok (w_nftn w)) /\ made_net w w' (w_nftn w) tnr_senv_net.
Proof. unfold createSCEnvSFTN. build. Qed.
End Made.
Lemma tnr_networks_made : forall A,
  (forall w : world A, exists w', createQxAFTN w = (w', Ok (w_nftn w)) /\ made_net w w' (w_nftn w) tnr_qa_net) /\
  (forall w : world A, exists w', createCFTN w = (w', Ok (w_nftn w)) /\ made_net w w' (w_nftn w) tnr_cc4_net) /\
  (forall w : world A, exists w', createCCFTN w = (w', Ok (w_nftn w)) /\ made_net w w' (w_nftn w) tnr_dub_net) /\
  (forall w : world A, exists w', createSCEnvSFTN w = (w', Ok (w_nftn w)) /\ made_net w w' (w_nftn w) tnr_senv_net).
Proof. intros A. split; [apply tnr_qa_made|]. split; [apply tnr_cc4_made|]. split; [apply tnr_dub_made|apply tnr_senv_made]. Qed.

Section Value.
Context {A : Type} {HA : SR A}.
Notation heap := (heap A).
Notation world := (world A).
Variable symdiff : list nat -> list nat -> list nat.
Hypothesis Hsd : symdiff_ok symdiff.
Variable fuel : nat.
Lemma tnr_qa_value (w : world) f w' t t_q t_A D1 D2 E1 E2 E3 :
  contract symdiff fuel f [("q", t_q); ("A", t_A)] true w = (w', Ok t) -> is_net w f tnr_qa_net ->
  dense_legs (w_heap w) t_q [("h", D1); ("v", D2); ("o", E1)] ->
  dense_legs (w_heap w) t_A [("l", D1); ("u", D2); ("r", E2); ("d", E3)] ->
  dense_legs (w_heap w') t [("o", E1); ("h", E2); ("v", E3)] /\ is_net w' f tnr_qa_net /\
  forall i1 i2 i3, i1 < E1 -> i2 < E2 -> i3 < E3 ->
    at_ (w_heap w') t [("o", i1); ("h", i2); ("v", i3)] =
    (sumN D1 (fun x1 => sumN D2 (fun x2 =>
      at_ (w_heap w) t_q [("h", x1); ("v", x2); ("o", i1)] *
      at_ (w_heap w) t_A [("l", x1); ("u", x2); ("r", i2); ("d", i3)])))%sr.
Proof.
  unfold is_net. cbn [n_names n_links n_out n_after tnr_qa_net]. intros R FI L1 L2.
  set (D := table [("q-h", D1); ("q-v", D2); ("q-o", E1); ("A-l", D1); ("A-u", D2); ("A-r", E2); ("A-d", E3)]).
  destruct (dense_value symdiff Hsd fuel w f _ true w' t _ _ _ _ D [("q", ["h"; "v"; "o"]); ("A", ["l"; "u"; "r"; "d"])] R FI) as (DN & FI2 & HV).
  - discriminate.
  - ports.
  - vm_compute. reflexivity.
  - value HV DN FI2. intros i1 i2 i3 H1 H2 H3. entry_goal HV [("q-o", i1); ("A-r", i2); ("A-d", i3)].
Qed.
Lemma tnr_cc4_value (w : world) f w' t t_ul t_ur t_dl t_dr D1 D2 D3 D4 E1 E2 E3 E4 :
  contract symdiff fuel f [("ul", t_ul); ("ur", t_ur); ("dl", t_dl); ("dr", t_dr)] true w = (w', Ok t) -> is_net w f tnr_cc4_net ->
  dense_legs (w_heap w) t_ul [("v", D1); ("h", D3); ("o", E1)] ->
  dense_legs (w_heap w) t_ur [("v", D2); ("h", D3); ("o", E2)] ->
  dense_legs (w_heap w) t_dl [("v", D1); ("h", D4); ("o", E3)] ->
  dense_legs (w_heap w) t_dr [("v", D2); ("h", D4); ("o", E4)] ->
  dense_legs (w_heap w') t [("ul", E1); ("ur", E2); ("dl", E3); ("dr", E4)] /\ is_net w' f tnr_cc4_net /\
  forall i1 i2 i3 i4, i1 < E1 -> i2 < E2 -> i3 < E3 -> i4 < E4 ->
    at_ (w_heap w') t [("ul", i1); ("ur", i2); ("dl", i3); ("dr", i4)] =
    (sumN D1 (fun x1 => sumN D2 (fun x2 => sumN D3 (fun x3 => sumN D4 (fun x4 =>
      at_ (w_heap w) t_ul [("v", x1); ("h", x3); ("o", i1)] *
      at_ (w_heap w) t_ur [("v", x2); ("h", x3); ("o", i2)] *
      at_ (w_heap w) t_dl [("v", x1); ("h", x4); ("o", i3)] *
      at_ (w_heap w) t_dr [("v", x2); ("h", x4); ("o", i4)])))))%sr.
Proof.
  unfold is_net. cbn [n_names n_links n_out n_after tnr_cc4_net]. intros R FI L1 L2 L3 L4.
  set (D := table [("ul-v", D1); ("ul-h", D3); ("ul-o", E1); ("ur-v", D2); ("ur-h", D3); ("ur-o", E2); ("dl-v", D1); ("dl-h", D4); ("dl-o", E3); ("dr-v", D2); ("dr-h", D4); ("dr-o", E4)]).
  destruct (dense_value symdiff Hsd fuel w f _ true w' t _ _ _ _ D [("ul", ["v"; "h"; "o"]); ("ur", ["v"; "h"; "o"]); ("dl", ["v"; "h"; "o"]); ("dr", ["v"; "h"; "o"])] R FI) as (DN & FI2 & HV).
  - discriminate.
  - ports.
  - vm_compute. reflexivity.
  - value HV DN FI2. intros i1 i2 i3 i4 H1 H2 H3 H4. entry_goal HV [("ul-o", i1); ("ur-o", i2); ("dl-o", i3); ("dr-o", i4)].
Qed.
Lemma tnr_dub_value (w : world) f w' t t_u t_d D1 D2 E1 E2 E3 E4 :
  contract symdiff fuel f [("u", t_u); ("d", t_d)] true w = (w', Ok t) -> is_net w f tnr_dub_net ->
  dense_legs (w_heap w) t_u [("ul", E1); ("ur", E2); ("dl", D1); ("dr", D2)] ->
  dense_legs (w_heap w) t_d [("ul", E3); ("ur", E4); ("dl", D1); ("dr", D2)] ->
  dense_legs (w_heap w') t [("ul", E1); ("ur", E2); ("dl", E3); ("dr", E4)] /\ is_net w' f tnr_dub_net /\
  forall i1 i2 i3 i4, i1 < E1 -> i2 < E2 -> i3 < E3 -> i4 < E4 ->
    at_ (w_heap w') t [("ul", i1); ("ur", i2); ("dl", i3); ("dr", i4)] =
    (sumN D1 (fun x1 => sumN D2 (fun x2 =>
      at_ (w_heap w) t_u [("ul", i1); ("ur", i2); ("dl", x1); ("dr", x2)] *
      at_ (w_heap w) t_d [("ul", i3); ("ur", i4); ("dl", x1); ("dr", x2)])))%sr.
Proof.
  unfold is_net. cbn [n_names n_links n_out n_after tnr_dub_net]. intros R FI L1 L2.
  set (D := table [("u-ul", E1); ("u-ur", E2); ("u-dl", D1); ("u-dr", D2); ("d-ul", E3); ("d-ur", E4); ("d-dl", D1); ("d-dr", D2)]).
  destruct (dense_value symdiff Hsd fuel w f _ true w' t _ _ _ _ D [("u", ["ul"; "ur"; "dl"; "dr"]); ("d", ["ul"; "ur"; "dl"; "dr"])] R FI) as (DN & FI2 & HV).
  - discriminate.
  - ports.
  - vm_compute. reflexivity.
  - value HV DN FI2. intros i1 i2 i3 i4 H1 H2 H3 H4. entry_goal HV [("u-ul", i1); ("u-ur", i2); ("d-ul", i3); ("d-ur", i4)].
Qed.
Lemma tnr_senv_value (w : world) f w' t t_CC t_ql t_qr t_u t_yl t_yr D1 D2 D3 D4 D5 D6 D7 D8 E1 E2 E3 E4 :
  contract symdiff fuel f [("CC", t_CC); ("ql", t_ql); ("qr", t_qr); ("u", t_u); ("yl", t_yl); ("yr", t_yr)] true w = (w', Ok t) -> is_net w f tnr_senv_net ->
  dense_legs (w_heap w) t_CC [("ul", E1); ("ur", E2); ("dl", D1); ("dr", D2)] ->
  dense_legs (w_heap w) t_ql [("h", D3); ("v", D5); ("o", D1)] ->
  dense_legs (w_heap w) t_qr [("h", D4); ("v", D6); ("o", D2)] ->
  dense_legs (w_heap w) t_u [("ol", D6); ("or", D5); ("il", D8); ("ir", D7)] ->
  dense_legs (w_heap w) t_yl [("h", D3); ("v", D7); ("o", E3)] ->
  dense_legs (w_heap w) t_yr [("h", D4); ("v", D8); ("o", E4)] ->
  dense_legs (w_heap w') t [("ul", E1); ("ur", E2); ("dl", E3); ("dr", E4)] /\ is_net w' f tnr_senv_net /\
  forall i1 i2 i3 i4, i1 < E1 -> i2 < E2 -> i3 < E3 -> i4 < E4 ->
    at_ (w_heap w') t [("ul", i1); ("ur", i2); ("dl", i3); ("dr", i4)] =
    (sumN D1 (fun x1 => sumN D2 (fun x2 => sumN D3 (fun x3 => sumN D4 (fun x4 => sumN D5 (fun x5 => sumN D6 (fun x6 => sumN D7 (fun x7 => sumN D8 (fun x8 =>
      at_ (w_heap w) t_CC [("ul", i1); ("ur", i2); ("dl", x1); ("dr", x2)] *
      at_ (w_heap w) t_ql [("h", x3); ("v", x5); ("o", x1)] *
      at_ (w_heap w) t_qr [("h", x4); ("v", x6); ("o", x2)] *
      at_ (w_heap w) t_u [("ol", x6); ("or", x5); ("il", x8); ("ir", x7)] *
      at_ (w_heap w) t_yl [("h", x3); ("v", x7); ("o", i3)] *
      at_ (w_heap w) t_yr [("h", x4); ("v", x8); ("o", i4)])))))))))%sr.
Proof.
  unfold is_net. cbn [n_names n_links n_out n_after tnr_senv_net]. intros R FI L1 L2 L3 L4 L5 L6.
  set (D := table [("CC-ul", E1); ("CC-ur", E2); ("CC-dl", D1); ("CC-dr", D2); ("ql-h", D3); ("ql-v", D5); ("ql-o", D1); ("qr-h", D4); ("qr-v", D6); ("qr-o", D2); ("u-ol", D6); ("u-or", D5); ("u-il", D8); ("u-ir", D7); ("yl-h", D3); ("yl-v", D7); ("yl-o", E3); ("yr-h", D4); ("yr-v", D8); ("yr-o", E4)]).
  destruct (dense_value symdiff Hsd fuel w f _ true w' t _ _ _ _ D [("CC", ["ul"; "ur"; "dl"; "dr"]); ("ql", ["h"; "v"; "o"]); ("qr", ["h"; "v"; "o"]); ("u", ["ol"; "or"; "il"; "ir"]); ("yl", ["h"; "v"; "o"]); ("yr", ["h"; "v"; "o"])] R FI) as (DN & FI2 & HV).
  - discriminate.
  - ports.
  - vm_compute. reflexivity.
  - value HV DN FI2. intros i1 i2 i3 i4 H1 H2 H3 H4. entry_goal HV [("CC-ul", i1); ("CC-ur", i2); ("yl-o", i3); ("yr-o", i4)].
Qed.
(** with a mirror symmetric u the legs of u may be read in the order of the formula in the comment *)
Lemma tnr_senv_ncon (w : world) f w' t t_CC t_ql t_qr t_u t_yl t_yr D1 D2 D3 D4 D5 D7 E1 E2 E3 E4 :
  contract symdiff fuel f [("CC", t_CC); ("ql", t_ql); ("qr", t_qr); ("u", t_u); ("yl", t_yl); ("yr", t_yr)] true w = (w', Ok t) -> is_net w f tnr_senv_net ->
  dense_legs (w_heap w) t_CC [("ul", E1); ("ur", E2); ("dl", D1); ("dr", D2)] ->
  dense_legs (w_heap w) t_ql [("h", D3); ("v", D5); ("o", D1)] -> dense_legs (w_heap w) t_qr [("h", D4); ("v", D5); ("o", D2)] ->
  dense_legs (w_heap w) t_u [("ol", D5); ("or", D5); ("il", D7); ("ir", D7)] ->
  dense_legs (w_heap w) t_yl [("h", D3); ("v", D7); ("o", E3)] -> dense_legs (w_heap w) t_yr [("h", D4); ("v", D7); ("o", E4)] ->
  mirror_symmetric (w_heap w) t_u D5 D7 ->
  forall i1 i2 i3 i4, i1 < E1 -> i2 < E2 -> i3 < E3 -> i4 < E4 ->
    at_ (w_heap w') t [("ul", i1); ("ur", i2); ("dl", i3); ("dr", i4)] = env_ncon (w_heap w) t_CC t_ql t_qr t_u t_yl t_yr D1 D2 D3 D4 D5 D7 i1 i2 i3 i4.
Proof.
  intros R FI L1 L2 L3 L4 L5 L6 SY i1 i2 i3 i4 H1 H2 H3 H4.
  destruct (tnr_senv_value w f w' t t_CC t_ql t_qr t_u t_yl t_yr D1 D2 D3 D4 D5 D5 D7 D7 E1 E2 E3 E4 R FI L1 L2 L3 L4 L5 L6) as (_ & _ & V). rewrite V by auto. unfold env_ncon.
  repeat (apply sumN_cong; [reflexivity|]; intros). rewrite SY by auto. reflexivity.
Qed.
End Value.
