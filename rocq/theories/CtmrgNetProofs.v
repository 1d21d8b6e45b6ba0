(** The networks of CTMRG when the corners are diagonal tensors. *)
From Coq Require Import List Arith Bool String Lia Permutation.
From Verif Require Import Base Sums NdModel HeapModel TensorModel TensorSpec NetSpec ContractModel SearchModel SearchSpec GraphModel NetGraphModel FtnModel FtnSpec FtnNetSpec
  NamedSpec NetsModel NetsSpec TensorProofs FtnProofs NamedProofs FtnMainProofs FtnStaleProofs SeqProofs NetsProofs DiagNetSpec NamedDiagProofs TensorProofs MatrixProofs.
Import ListNotations.
Local Open Scope nat_scope.
Local Open Scope string_scope.
Local Open Scope list_scope.

Section Value.
Context {A : Type} {HA : SR A}.
Notation heap := (heap A).
Notation world := (world A).
Variable symdiff : list nat -> list nat -> list nat.
Hypothesis Hsd : symdiff_ok symdiff.
Variable fuel : nat.
Lemma mixed_value w f d b w' t names links out after pat D N : contract symdiff fuel f d b w = (w', Ok t) -> ftn_pat w f names links out after pat -> d <> [] ->
  Forall2 (fun p q => fst p = fst q /\ legs_as (pat (fst p)) (w_heap w) (snd p) (map (fun n => (n, D (fst q, n))) (snd q))) d N ->
  checked N links out after = true ->
  ftn_pat w' f names links out after pat /\ has_value (w_heap w') t D (expected N links out after b) (psum D links (pprod (w_heap w) d)) /\
  t_like (tens (w_heap w') t) = false /\ t_diag (tens (w_heap w') t) = forallb (fun p => pat (fst p)) d.
Proof.
  intros R FI Ne F2 CK. unfold checked in CK. rewrite !andb_true_iff in CK. destruct CK as [[[[C1 C2] C3] C4] C5].
  assert (EN : map fst d = map fst N) by (clear -F2; induction F2 as [|p q d N [E _] F IH]; simpl; congruence).
  assert (Hd : forall p, In p d -> wf_tensor (w_heap w) (snd p) /\ t_like (tens (w_heap w) (snd p)) = false /\ t_diag (tens (w_heap w) (snd p)) = pat (fst p)).
  { clear -F2. induction F2 as [|p q d N (_ & DL) F IH]; [intros x []|]. intros x [<-|Hx]; auto. apply DL. }
  assert (HP : has_ports (w_heap w) D d N).
  { rewrite forallb_forall in C5. clear -F2 C5. induction F2 as [|p q d N (E & DL) F IH]; constructor.
    - repeat split; auto; [apply DL|]. apply nodupb_ok. apply C5. now left.
    - apply IH. intros x Hx. apply C5. now right. }
  destruct (contract_pattern symdiff Hsd fuel w f d b w' t names links out after D N pat R FI) as (HV & FI2 & FL & FD); auto.
  - split; [|rewrite EN; now apply nodupb_ok]. intros p Hp. split; apply (Hd p Hp).
  - now apply plinks_okb_ok.
  - split; [now apply distinct_joinb_ok|now apply distinct_renameb_ok].
  - intros p Hp. apply (Hd p Hp).
Qed.
(** the value of a tensor without legs *)
Lemma single_value (h : heap) t : wf_tensor h t -> t_like (tens h t) = false -> has_legs h t [] -> single h t = Ok (at_ h t []).
Proof.
  intros WF NL HL. assert (E : legs_of h t = []).
  { unfold has_legs in HL. cbn in HL. apply Permutation_sym, Permutation_nil in HL. unfold names_of, dims_of in HL. destruct (legs_of h t); [auto|discriminate]. }
  unfold single. rewrite NL. assert (ES : shape h t = []) by (rewrite (wf_shape h t WF); unfold dims_of; now rewrite E).
  rewrite ES. pose proof (wt_data _ _ WF) as DO. unfold data_ok in DO. rewrite NL in DO. unfold at_, at_names, entry, entry_of. unfold legs_of in E.
  destruct (t_arr (tens h t)) as [a|]; [|destruct DO]. rewrite E. destruct (t_diag (tens h t)) eqn:DG; [|reflexivity].
  rewrite (proj1 (wt_diag _ _ WF DG)) by exact E. reflexivity.
Qed.
End Value.

Ltac mfactor :=
  lazymatch goal with
  | |- at_names ?h ?t _ = at_ ?h ?t _ =>
    match goal with
    | L : dense_legs h t _ |- _ => apply (at_names_at h t _ _ _ (proj2 L))
    | L : legs_as _ h t _ |- _ => apply (at_names_at h t _ _ _ (proj2 L))
    end; let n := fresh in let Hn := fresh in intros n Hn; enum_in Hn ltac:(vm_compute; reflexivity)
  end.
Ltac mfactors :=
  cbn [pprod]; rewrite mul_one_r; rewrite ?rmul_assoc;
  repeat (apply (f_equal2 rmul); [|mfactor]); mfactor.
Ltac mentry HV tab :=
  unfold at_ at 1; rewrite (hv_entry _ _ _ _ _ HV (table tab));
  [sums; mfactors
  |let p := fresh in let Hp := fresh in intros p Hp; enum_in Hp ltac:(cbn; assumption)
  |let p := fresh in let Hp := fresh in intros p Hp; enum_in Hp ltac:(cbv -[Nat.mul Nat.add]; lia)].
Ltac norm_items HV :=
  match type of HV with has_value _ _ _ ?I _ => let I' := eval vm_compute in I in replace I with I' in HV by (vm_compute; reflexivity) end.
Ltac mports := repeat (apply Forall2_cons; [split; [reflexivity|first [assumption|split; assumption]]|]); apply Forall2_nil.

Section Values.
Context {A : Type} {HA : SR A}.
Notation heap := (heap A).
Notation world := (world A).
Variable symdiff : list nat -> list nat -> list nat.
Hypothesis Hsd : symdiff_ok symdiff.
Variable fuel : nat.
Lemma corner_extend_diag (w : world) f w' t t_ph t_pv t_w t_c D1 D2 D3 D4 E1 E2 E3 E4 :
  contract symdiff fuel f [("ph", t_ph); ("pv", t_pv); ("w", t_w); ("c", t_c)] true w = (w', Ok t) -> is_net_for w f corner_extend_net corner_diag ->
  dense_legs (w_heap w) t_ph [("l", D2); ("r", E1); ("u", D4)] ->
  dense_legs (w_heap w) t_pv [("u", E2); ("d", D1); ("r", D3)] ->
  dense_legs (w_heap w) t_w [("u", E3); ("l", D3); ("d", D4); ("r", E4)] ->
  diag_legs (w_heap w) t_c [("u", D1); ("r", D2)] ->
  dense_legs (w_heap w') t [("r", E1 * E4); ("u", E2 * E3)] /\ is_net_for w' f corner_extend_net corner_diag /\
  forall i1 i2 i3 i4, i1 < E1 -> i2 < E2 -> i3 < E3 -> i4 < E4 -> 
    at_ (w_heap w') t [("r", i1 * E4 + i4); ("u", i2 * E3 + i3)] =
    (sumN D1 (fun x1 => sumN D2 (fun x2 => sumN D3 (fun x3 => sumN D4 (fun x4 =>
      at_ (w_heap w) t_ph [("l", x2); ("r", i1); ("u", x4)] *
      at_ (w_heap w) t_pv [("u", i2); ("d", x1); ("r", x3)] *
      at_ (w_heap w) t_w [("u", i3); ("l", x3); ("d", x4); ("r", i4)] *
      at_ (w_heap w) t_c [("u", x1); ("r", x2)])))))%sr.
Proof.
  unfold is_net_for. cbn [n_names n_links n_out n_after corner_extend_net]. intros R FI L1 L2 L3 L4.
  set (D := table [("ph-l", D2); ("ph-r", E1); ("ph-u", D4); ("pv-u", E2); ("pv-d", D1); ("pv-r", D3); ("w-u", E3); ("w-l", D3); ("w-d", D4); ("w-r", E4); ("c-u", D1); ("c-r", D2)]).
  destruct (mixed_value symdiff Hsd fuel w f _ true w' t _ _ _ _ corner_diag D [("ph", ["l"; "r"; "u"]); ("pv", ["u"; "d"; "r"]); ("w", ["u"; "l"; "d"; "r"]); ("c", ["u"; "r"])] R FI) as (FI2 & HV & NL & DG).
  - discriminate.
  - mports.
  - vm_compute. reflexivity.
  - norm_items HV. split; [split; [split; [exact (hv_wf _ _ _ _ _ HV)|split; [exact NL|rewrite DG; reflexivity]]|legs_goal HV]|split; [exact FI2|]]. intros i1 i2 i3 i4 H1 H2 H3 H4. mentry HV [("ph-r", i1); ("pv-u", i2); ("w-u", i3); ("w-r", i4)].
Qed.
Lemma evenZ_diag (w : world) f w' t t_alu t_ald t_aru t_ard D1 D2 D3 D4 :
  contract symdiff fuel f [("alu", t_alu); ("ald", t_ald); ("aru", t_aru); ("ard", t_ard)] true w = (w', Ok t) -> is_net_for w f evenZ_net corner_diag ->
  diag_legs (w_heap w) t_alu [("u", D1); ("r", D3)] ->
  diag_legs (w_heap w) t_ald [("u", D1); ("r", D4)] ->
  diag_legs (w_heap w) t_aru [("u", D2); ("r", D3)] ->
  diag_legs (w_heap w) t_ard [("u", D2); ("r", D4)] ->
  diag_legs (w_heap w') t [] /\ is_net_for w' f evenZ_net corner_diag /\
  at_ (w_heap w') t [] =
    (sumN D1 (fun x1 => sumN D2 (fun x2 => sumN D3 (fun x3 => sumN D4 (fun x4 =>
      at_ (w_heap w) t_alu [("u", x1); ("r", x3)] *
      at_ (w_heap w) t_ald [("u", x1); ("r", x4)] *
      at_ (w_heap w) t_aru [("u", x2); ("r", x3)] *
      at_ (w_heap w) t_ard [("u", x2); ("r", x4)])))))%sr.
Proof.
  unfold is_net_for. cbn [n_names n_links n_out n_after evenZ_net]. intros R FI L1 L2 L3 L4.
  set (D := table [("alu-u", D1); ("alu-r", D3); ("ald-u", D1); ("ald-r", D4); ("aru-u", D2); ("aru-r", D3); ("ard-u", D2); ("ard-r", D4)]).
  destruct (mixed_value symdiff Hsd fuel w f _ true w' t _ _ _ _ corner_diag D [("alu", ["u"; "r"]); ("ald", ["u"; "r"]); ("aru", ["u"; "r"]); ("ard", ["u"; "r"])] R FI) as (FI2 & HV & NL & DG).
  - discriminate.
  - mports.
  - vm_compute. reflexivity.
  - norm_items HV. split; [split; [split; [exact (hv_wf _ _ _ _ _ HV)|split; [exact NL|rewrite DG; reflexivity]]|legs_goal HV]|split; [exact FI2|]]. mentry HV (@nil (string * nat)).
Qed.
Lemma oddZ_diag (w : world) f w' t t_alu t_ald t_aru t_ard t_pl t_pr t_pd t_pu t_w D1 D2 D3 D4 D5 D6 D7 D8 D9 D10 D11 D12 :
  contract symdiff fuel f [("alu", t_alu); ("ald", t_ald); ("aru", t_aru); ("ard", t_ard); ("pl", t_pl); ("pr", t_pr); ("pd", t_pd); ("pu", t_pu); ("w", t_w)] true w = (w', Ok t) -> is_net_for w f oddZ_net corner_diag ->
  diag_legs (w_heap w) t_alu [("u", D5); ("r", D1)] ->
  diag_legs (w_heap w) t_ald [("u", D6); ("r", D3)] ->
  diag_legs (w_heap w) t_aru [("u", D7); ("r", D2)] ->
  diag_legs (w_heap w) t_ard [("u", D8); ("r", D4)] ->
  dense_legs (w_heap w) t_pl [("u", D5); ("d", D6); ("r", D9)] ->
  dense_legs (w_heap w) t_pr [("u", D7); ("d", D8); ("r", D10)] ->
  dense_legs (w_heap w) t_pd [("l", D3); ("r", D4); ("u", D11)] ->
  dense_legs (w_heap w) t_pu [("l", D1); ("r", D2); ("u", D12)] ->
  dense_legs (w_heap w) t_w [("u", D12); ("l", D9); ("d", D11); ("r", D10)] ->
  dense_legs (w_heap w') t [] /\ is_net_for w' f oddZ_net corner_diag /\
  at_ (w_heap w') t [] =
    (sumN D1 (fun x1 => sumN D2 (fun x2 => sumN D3 (fun x3 => sumN D4 (fun x4 => sumN D5 (fun x5 => sumN D6 (fun x6 => sumN D7 (fun x7 => sumN D8 (fun x8 => sumN D9 (fun x9 => sumN D10 (fun x10 => sumN D11 (fun x11 => sumN D12 (fun x12 =>
      at_ (w_heap w) t_alu [("u", x5); ("r", x1)] *
      at_ (w_heap w) t_ald [("u", x6); ("r", x3)] *
      at_ (w_heap w) t_aru [("u", x7); ("r", x2)] *
      at_ (w_heap w) t_ard [("u", x8); ("r", x4)] *
      at_ (w_heap w) t_pl [("u", x5); ("d", x6); ("r", x9)] *
      at_ (w_heap w) t_pr [("u", x7); ("d", x8); ("r", x10)] *
      at_ (w_heap w) t_pd [("l", x3); ("r", x4); ("u", x11)] *
      at_ (w_heap w) t_pu [("l", x1); ("r", x2); ("u", x12)] *
      at_ (w_heap w) t_w [("u", x12); ("l", x9); ("d", x11); ("r", x10)])))))))))))))%sr.
Proof.
  unfold is_net_for. cbn [n_names n_links n_out n_after oddZ_net]. intros R FI L1 L2 L3 L4 L5 L6 L7 L8 L9.
  set (D := table [("alu-u", D5); ("alu-r", D1); ("ald-u", D6); ("ald-r", D3); ("aru-u", D7); ("aru-r", D2); ("ard-u", D8); ("ard-r", D4); ("pl-u", D5); ("pl-d", D6); ("pl-r", D9); ("pr-u", D7); ("pr-d", D8); ("pr-r", D10); ("pd-l", D3); ("pd-r", D4); ("pd-u", D11); ("pu-l", D1); ("pu-r", D2); ("pu-u", D12); ("w-u", D12); ("w-l", D9); ("w-d", D11); ("w-r", D10)]).
  destruct (mixed_value symdiff Hsd fuel w f _ true w' t _ _ _ _ corner_diag D [("alu", ["u"; "r"]); ("ald", ["u"; "r"]); ("aru", ["u"; "r"]); ("ard", ["u"; "r"]); ("pl", ["u"; "d"; "r"]); ("pr", ["u"; "d"; "r"]); ("pd", ["l"; "r"; "u"]); ("pu", ["l"; "r"; "u"]); ("w", ["u"; "l"; "d"; "r"])] R FI) as (FI2 & HV & NL & DG).
  - discriminate.
  - mports.
  - vm_compute. reflexivity.
  - norm_items HV. split; [split; [split; [exact (hv_wf _ _ _ _ _ HV)|split; [exact NL|rewrite DG; reflexivity]]|legs_goal HV]|split; [exact FI2|]]. mentry HV (@nil (string * nat)).
Qed.
End Values.
