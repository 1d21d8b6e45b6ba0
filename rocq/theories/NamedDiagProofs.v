(** Contraction by port names when some of the tensors are diagonal, the same ones in every call: a sequence that was found before fits again. *)
From Coq Require Import List Arith Bool String Lia Permutation.
From Verif Require Import Base Sums NdModel HeapModel TensorModel TensorSpec NetSpec ContractModel SearchModel SearchSpec GraphModel NetGraphModel FtnModel FtnSpec FtnNetSpec
  NamedSpec NetsModel NetsSpec TensorProofs FtnProofs NamedProofs FtnMainProofs FtnStaleProofs SeqProofs NetsProofs DiagNetSpec.
Import ListNotations.
Local Open Scope nat_scope.
Local Open Scope string_scope.
Local Open Scope list_scope.

Section Pat.
Context {A : Type} {HA : SR A}.
Notation heap := (heap A).
Notation world := (world A).

Lemma named_used names us I nm : map fst us = names -> used_at us I nm <-> exists i, In i I /\ nth_error names i = Some nm.
Proof.
  intros <-. unfold used_at. split.
  - intros (i & t & Hi & E). exists i. split; auto. rewrite nth_error_map, E. reflexivity.
  - intros (i & Hi & E). rewrite nth_error_map in E. destruct (nth_error us i) as [[n t]|] eqn:Eu; [|discriminate]. injection E as <-. exists i, t. auto.
Qed.
Lemma diag_at_pat (h : heap) pat us I : (forall p, In p us -> t_diag (tens h (snd p)) = pat (fst p)) -> diag_at h us I = all_pat pat (map fst us) I.
Proof.
  intros Hp. unfold diag_at, all_pat. induction I as [|i I IH]; auto. cbn [forallb]. rewrite IH. f_equal. rewrite nth_error_map.
  destruct (nth_error us i) as [p|] eqn:E; auto. cbn. apply Hp. now apply nth_error_In in E.
Qed.
Lemma fits_pat (h : heap) pat names us (ps : list rlink) sq : map fst us = names -> (forall p, In p us -> t_diag (tens h (snd p)) = pat (fst p)) ->
  seq_fits h us ps sq <-> pat_fits names (map (plink_of h) ps) pat sq.
Proof.
  intros En Hp. unfold seq_fits, pat_fits. rewrite <- En, map_length.
  assert (EQ : forall I J, (diag_at h us I = true -> diag_at h us J = true -> exists a b, (In (a, b) ps \/ In (b, a) ps) /\ used_at us I (fst a) /\ used_at us J (fst b)) <->
    (all_pat pat (map fst us) I = true -> all_pat pat (map fst us) J = true -> exists a b, (In (a, b) (map (plink_of h) ps) \/ In (b, a) (map (plink_of h) ps)) /\
      (exists i, In i I /\ nth_error (map fst us) i = Some (fst a)) /\ (exists j, In j J /\ nth_error (map fst us) j = Some (fst b)))).
  { intros I J. rewrite !(diag_at_pat h pat us) by auto. split; intros Q D1 D2; destruct (Q D1 D2) as (a & b & L & U1 & U2).
    - exists (port_of h a), (port_of h b). split; [|split].
      + destruct L as [L|L]; [left|right]; apply (in_map (plink_of h)) in L; exact L.
      + apply (proj1 (named_used _ us I _ eq_refl)) in U1. destruct a; exact U1.
      + apply (proj1 (named_used _ us J _ eq_refl)) in U2. destruct b; exact U2.
    - assert (X : exists a' b', (In (a', b') ps \/ In (b', a') ps) /\ fst a' = fst a /\ fst b' = fst b).
      { destruct L as [L|L]; apply in_map_iff in L; destruct L as ((x, y) & E & L); unfold plink_of in E; cbn in E; injection E as E1 E2; [exists x, y|exists y, x]; (split; [auto|]); rewrite <- E1, <- E2; destruct x, y; auto. }
      destruct X as (a' & b' & L' & E1 & E2). exists a', b'. split; auto. rewrite E1, E2. split; apply (proj2 (named_used _ us _ _ eq_refl)); auto. }
  split; intros (n & C); exists n; eapply complete_mono with (P := fun _ => True); eauto; cbv beta; intros G1 G2 _ _; apply EQ.
Qed.

Variable symdiff : list nat -> list nat -> list nat.
Hypothesis Hsd : symdiff_ok symdiff.
Variable fuel : nat.

Theorem contract_pattern w f d b w' t names links out after D N pat : contract symdiff fuel f d b w = (w', Ok t) -> ftn_pat w f names links out after pat ->
  usable (w_heap w) d -> has_ports (w_heap w) D d N -> plinks_ok links -> distinct_names N links out after ->
  (forall p, In p d -> t_diag (tens (w_heap w) (snd p)) = pat (fst p)) ->
  has_value (w_heap w') t D (expected N links out after b) (psum D links (pprod (w_heap w) d)) /\ ftn_pat w' f names links out after pat /\
  t_like (tens (w_heap w') t) = false /\ t_diag (tens (w_heap w') t) = forallb (fun p => pat (fst p)) d.
Proof.
  intros R [FI FP] [Ud ND] HP0 PL DN0 Pat. destruct (ports_ordered _ _ _ _ HP0) as (N' & HP & RO). pose proof (distinct_names_perm _ _ _ _ _ RO DN0) as DN.
  destruct (contract_declares _ _ _ _ _ _ _ _ _ R (fun p Hp => proj1 (Ud p Hp)) ND (fi_links _ _ _ _ _ _ FI)) as [PN (ps & FD)].
  rewrite (fi_before _ _ _ _ _ _ FI) in FD. destruct (declares_ports _ _ _ _ FD) as [El Hin].
  assert (PR : proper ps) by (apply (ports_proper (w_heap w)); rewrite <- El; exact PL).
  assert (FD' := FD). rewrite <- (fi_before _ _ _ _ _ _ FI) in FD'.
  assert (CACHE : forall sq, f_seq (w_ftn w f) = Some sq -> exists us, Permutation us d /\ namesOf w f = map fst us /\ seq_fits (w_heap w) us ps sq).
  { intros sq Esq. destruct (perm_dict _ _ PN) as (us & PU & NU). exists us. split; [exact PU|]. split; [exact NU|].
    apply (fits_pat (w_heap w) pat names us ps sq); [rewrite <- NU; apply (fi_names _ _ _ _ _ _ FI)|intros p Hp; apply Pat; eapply Permutation_in; eauto|]. rewrite <- El. now apply FP. }
  destruct (contract_value symdiff Hsd fuel w f d b w' t links ps R Ud ND (fi_links _ _ _ _ _ _ FI) FD' PR CACHE) as [(items & RI & RP) (us & sq & PU & NU & FS & SF)].
  pose proof (contract_flags symdiff Hsd fuel w f d b w' t links ps R Ud ND (fi_links _ _ _ _ _ _ FI) FD' PR CACHE) as [FL1 FL2].
  rewrite (fi_before _ _ _ _ _ _ FI), (fi_out _ _ _ _ _ _ FI), (fi_after _ _ _ _ _ _ FI) in RI. split; [|split; [|split; [exact FL1|]]].
  - eapply has_value_perm; [apply (expected_perm _ _ _ _ _ _ RO DN0)|]. eapply (has_value_of (w_heap w) D d N' HP ND links ps out after b items); eauto. eapply result_roles; eauto.
  - pose proof (contract_kept symdiff fuel f d b w) as K. rewrite R in K. cbn [fst] in K.
    destruct K as (K1 & K2 & K3 & K4 & SS & _). destruct SS as (S1 & S2 & S3 & S4 & S5 & _).
    assert (PF : pat_fits names links pat sq).
    { rewrite El. apply (fits_pat (w_heap w) pat names us ps sq); [rewrite <- NU; apply (fi_names _ _ _ _ _ _ FI)|intros p Hp; apply Pat; eapply Permutation_in; eauto|exact SF]. }
    destruct FI as [G1 G2 G3 G4 G5 G6 G7]. split; [split|].
    + now rewrite K3.
    + unfold namesOf in *. congruence.
    + congruence.
    + congruence.
    + congruence.
    + congruence.
    + intros sq' E'. rewrite FS in E'. injection E' as <-. exists (w_heap w), us, ps. split; [|exact SF]. rewrite <- (map_length fst us), <- NU, G2. reflexivity.
    + intros sq' E'. rewrite FS in E'. injection E' as <-. exact PF.
  - rewrite FL2. clear -Pat. induction d as [|p d IH]; auto. cbn [forallb]. rewrite Pat by now left. f_equal. apply IH. intros q Hq. apply Pat. now right.
Qed.
End Pat.
