(** Statements about the three searches assembled from the invariants (C25-C29). *)
From Coq Require Import List Arith Bool Lia ZArith Permutation.
From Verif Require Import Base FuncsModel FuncsProofs NetSpec SearchModel BitProofs SearchSpec SearchBase BfProofs GreedyProofs CapProofs.
Import ListNotations.
Local Open Scope nat_scope.

Section S.
Variable symdiff : list nat -> list nat -> list nat.
Variable verts : list vres.
Variable dim : nat -> nat.
Variable typ : option nat.
Hypothesis SD : symdiff_ok symdiff.
Hypothesis WG : wf_graph verts dim.
Notation n := (List.length verts).

Lemma tree_ok_any t : tree_ok (fun _ _ => True) t.
Proof. induction t; simpl; auto. Qed.
Lemma tree_ok_ndo t : no_diag_outer verts t -> tree_ok (joinable verts) t.
Proof. induction t; simpl; [auto|]. intros (H1 & H2 & H3). auto. Qed.
Lemma groups0_length okp cost sq c : complete okp cost (groups0 verts) sq c -> List.length sq = n - 1.
Proof. intros H. apply complete_length in H. unfold groups0, vertices in H. rewrite map_length, seq_length in H. lia. Qed.

Lemma bf_optimal : 0 < n -> (typ = None -> diag_uniform verts dim) ->
  exists sq c, bruteForce symdiff verts typ = Ok (sq, c) /\
    complete (fun _ _ => True) (join_cost verts dim typ) (groups0 verts) sq c /\
    (exists t, spans verts t /\ tree_cost verts dim typ t = c) /\
    forall t, spans verts t -> c <= tree_cost verts dim typ t.
Proof.
  intros Hn DU. destruct (bruteForce_ok symdiff SD verts dim typ WG DU Hn) as (t & SP & E & MIN). exists (tseq t), (tree_cost verts dim typ t).
  split; auto. split; [|eauto]. apply tree_sequence; auto. apply tree_ok_any.
Qed.
Lemma cap_optimal fuel sq c : positive_costs verts dim typ -> capping symdiff verts typ fuel = Ok (sq, c) ->
  complete (joinable verts) (join_cost verts dim typ) (groups0 verts) sq c /\
  (exists t, spans verts t /\ no_diag_outer verts t /\ tree_cost verts dim typ t = c) /\
  forall t, spans verts t -> no_diag_outer verts t -> c <= tree_cost verts dim typ t.
Proof.
  intros PC E. destruct (capping_sound symdiff SD verts dim typ WG fuel sq c PC E) as (t & SP & ND & -> & -> & MIN).
  split; [|eauto]. apply tree_sequence; [exact SP|now apply tree_ok_ndo].
Qed.
Lemma cap_complete fuel sq c : capping symdiff verts typ fuel = Ok (sq, c) ->
  List.length sq = n - 1 /\ complete (joinable verts) (join_cost verts dim typ) (groups0 verts) sq c.
Proof.
  intros E. destruct (capping_tree symdiff SD verts dim typ WG fuel sq c E) as (t & SP & ND & -> & ->).
  assert (C : complete (joinable verts) (join_cost verts dim typ) (groups0 verts) (tseq t) (tree_cost verts dim typ t)) by (apply tree_sequence; [exact SP|now apply tree_ok_ndo]).
  split; auto. eapply groups0_length; eauto.
Qed.
Lemma bf_complete sq c : 0 < n -> (typ = None -> diag_uniform verts dim) -> bruteForce symdiff verts typ = Ok (sq, c) ->
  List.length sq = n - 1 /\ complete (fun _ _ => True) (join_cost verts dim typ) (groups0 verts) sq c.
Proof.
  intros Hn DU E. destruct (bf_optimal Hn DU) as (sq' & c' & E' & C & _). rewrite E in E'. injection E' as <- <-. split; auto. eapply groups0_length; eauto.
Qed.
Lemma greedy_complete sq c : 0 < n -> greedySearch symdiff verts = Ok (sq, c) ->
  List.length sq = n - 1 /\ complete (touching verts) (join_cost verts dim None) (groups0 verts) sq c /\ Forall (fun '(a, b) => a < b) sq.
Proof.
  intros Hn E. destruct (greedySearch_ok symdiff SD verts dim WG Hn) as [(sq' & c' & E' & C & LT & _)|(E' & _)]; [|congruence].
  rewrite E in E'. injection E' as <- <-. split; auto. eapply groups0_length; eauto.
Qed.
Lemma greedy_connected : 0 < n -> connected verts -> exists sq c, greedySearch symdiff verts = Ok (sq, c) /\
  complete (touching verts) (join_cost verts dim None) (groups0 verts) sq c.
Proof.
  intros Hn CN. destruct (greedySearch_ok symdiff SD verts dim WG Hn) as [(sq' & c' & E' & C & LT & _)|(E' & NC)]; [eauto|contradiction].
Qed.
Lemma greedy_disconnected : 0 < n -> ~ connected verts ->
  (vdiag verts (n - 1) = true -> vshape verts (n - 1) <> []) -> greedySearch symdiff verts = Err ValueError.
Proof.
  intros Hn NC H. destruct (greedySearch_ok symdiff SD verts dim WG Hn) as [(sq' & c' & E' & C & LT & CN)|(E' & _)]; [contradiction|].
  rewrite E'. unfold greedy_err. destruct (vdiag verts (n - 1)); auto. specialize (H eq_refl). destruct (vshape verts (n - 1)); [congruence|auto].
Qed.
Lemma greedy_scalar_last : 0 < n -> ~ connected verts ->
  vdiag verts (n - 1) = true -> vshape verts (n - 1) = [] -> greedySearch symdiff verts = Err IndexError.
Proof.
  intros Hn NC H H'. destruct (greedySearch_ok symdiff SD verts dim WG Hn) as [(sq' & c' & E' & C & LT & CN)|(E' & _)]; [contradiction|].
  rewrite E'. unfold greedy_err. now rewrite H, H'.
Qed.
Lemma cap_zero : (typ = None -> forall i, In i (vertices verts) -> vshape verts i <> []) -> 2 <= n -> zero_costs verts dim typ ->
  forall fuel, capping symdiff verts typ fuel = Err OutOfFuel.
Proof. intros HM Hn Z. apply (capping_zero symdiff SD verts dim typ WG HM Hn). intros G1 G2 (A & B). now apply Z. Qed.
Lemma cap_stops : positive_costs verts dim typ -> 0 < n -> (typ = None -> forall i, In i (vertices verts) -> vshape verts i <> []) ->
  (exists i, In i (vertices verts) /\ vdiag verts i = false) \/ connected verts ->
  exists r fuel0, forall fuel, fuel0 <= fuel -> capping symdiff verts typ fuel = Ok r.
Proof. exact (capping_stops symdiff SD verts dim typ WG). Qed.
Lemma cap_never : (typ = None -> forall i, In i (vertices verts) -> vshape verts i <> []) -> 2 <= n ->
  (forall i, In i (vertices verts) -> vdiag verts i = true) -> ~ connected verts -> forall fuel, capping symdiff verts typ fuel = Err OutOfFuel.
Proof. exact (capping_never symdiff SD verts dim typ WG). Qed.
End S.
