(** Properties of the contraction-order searches: C25, C26, C27, C28, C29, C30. *)
From Coq Require Import List Arith Bool Lia ZArith Permutation Relations Sorting.Sorted.
From Verif Require Import Base FuncsModel FuncsProofs NetSpec SearchModel BitProofs SearchSpec SearchBase CapProofs SearchProofs.
Import ListNotations.
Local Open Scope nat_scope.

(** ** Example networks *)
Definition sd (x y : list nat) : list nat :=
  filter (fun e => negb (inb e y)) (dedup x) ++ filter (fun e => negb (inb e x)) (dedup y).
Lemma sd_ok : symdiff_ok sd.
Proof.
  intros x y. unfold sd. split.
  - apply NoDup_app; try (apply NoDup_filter, dedup_NoDup). intros e H1 H2. apply filter_In in H1, H2. destruct H1 as (H1 & E1), H2 as (H2 & E2).
    apply negb_true_iff, inb_false in E1. apply E1. apply dedup_In. exact H2.
  - intros e. rewrite in_app_iff, !filter_In, !dedup_In, !negb_true_iff, !inb_false. tauto.
Qed.
Lemma small (k : nat) (P : nat -> Prop) : (forall i, i < k -> P i) -> forall i, In i (seq 0 k) -> P i.
Proof. intros H i Hi. apply in_seq in Hi. apply H. lia. Qed.
(** two diagonal tensors of dimension 2 with a dense one between them: [D(0,1) T(1,2) D(2,3)] *)
Definition chain : list vres := [([0;1],[2;2],true);([2;3],[2;2],true);([1;2],[2;2],false)].
(** three dense tensors with an open edge *)
Definition ring : list vres := [([0;1],[2;3],false);([1;2;3],[3;2;2],false);([0;3],[2;2],false)].
Definition ring_dim (e : nat) : nat := nth e [2;3;2;2] 0.
(** two unconnected diagonal tensors *)
Definition apart : list vres := [([0],[2],true);([1],[2],true)].

Ltac case_vertex H := repeat (destruct H as [<-|H]; [|]); [..|destruct H].
Lemma count_le2 (L : list nat) k : forallb (fun e => e <? k) L = true -> forallb (fun e => count_occ Nat.eq_dec L e <=? 2) (seq 0 k) = true ->
  forall e, count_occ Nat.eq_dec L e <= 2.
Proof.
  intros HL HC e. destruct (in_dec Nat.eq_dec e L) as [H|H].
  - rewrite forallb_forall in HL, HC. apply HL in H. apply Nat.ltb_lt in H. apply Nat.leb_le, HC, in_seq. lia.
  - apply (count_occ_not_In Nat.eq_dec) in H. lia.
Qed.
Lemma nodup_dec (L : list nat) : dedup L = L -> NoDup L.
Proof. intros <-. apply dedup_NoDup. Qed.
Lemma chain_wf : wf_graph chain (fun _ => 2).
Proof.
  apply Build_wf_graph.
  - intros i H. simpl in H. case_vertex H; apply nodup_dec; reflexivity.
  - intros i H. simpl in H. case_vertex H; reflexivity.
  - apply count_le2 with (k := 4); reflexivity.
  - reflexivity.
Qed.
Lemma ring_wf : wf_graph ring ring_dim.
Proof.
  apply Build_wf_graph.
  - intros i H. simpl in H. case_vertex H; apply nodup_dec; reflexivity.
  - intros i H. simpl in H. case_vertex H; reflexivity.
  - apply count_le2 with (k := 4); reflexivity.
  - intros i e e' H D. simpl in H. case_vertex H; discriminate D.
Qed.
Lemma apart_wf : wf_graph apart (fun _ => 2).
Proof.
  apply Build_wf_graph.
  - intros i H. simpl in H. case_vertex H; apply nodup_dec; reflexivity.
  - intros i H. simpl in H. case_vertex H; reflexivity.
  - apply count_le2 with (k := 2); reflexivity.
  - reflexivity.
Qed.
Lemma ring_uniform : diag_uniform ring ring_dim.
Proof.
  apply Build_diag_uniform.
  - intros i j e e' H _ D. simpl in H. case_vertex H; discriminate D.
  - intros [|i G1] G2 _ HI N1 _ D. { congruence. } exfalso. assert (H : In i (vertices ring)) by (apply HI; simpl; auto).
    simpl in D. apply andb_true_iff in D. destruct D as (D & _). simpl in H. case_vertex H; discriminate D.
Qed.
Lemma chain_uniform : diag_uniform chain (fun _ => 2).
Proof.
  apply Build_diag_uniform; [reflexivity|]. intros G1 G2 N HI N1 N2 D1 D2.
  (* edge 0 leaves vertex 0 and edge 3 leaves vertex 1; only these are diagonal *)
  assert (A : forall i, In i G1 -> i = 0 \/ i = 1).
  { intros i Hi. assert (H : In i (vertices chain)) by (apply HI, in_app_iff; auto). simpl in H. unfold all_dg in D1. rewrite forallb_forall in D1. specialize (D1 i Hi).
    case_vertex H; auto. discriminate D1. }
  assert (ND : NoDup G1) by (apply NoDup_app_inv in N; tauto).
  destruct G1 as [|i [|j G1]]; [congruence| |].
  - destruct (A i (or_introl eq_refl)) as [-> | ->]; discriminate.
  - inversion ND as [|? ? NI ND']; subst. inversion ND' as [|? ? NJ _]; subst.
    assert (G1 = []) as ->. { destruct G1 as [|k G1]; auto. exfalso. destruct (A i) as [-> | ->], (A j) as [-> | ->], (A k) as [-> | ->]; simpl in *; tauto. }
    destruct (A i) as [-> | ->], (A j) as [-> | ->]; simpl in *; auto; try tauto; discriminate.
Qed.
Lemma chain_positive typ : (forall d, typ = Some d -> 0 < d) -> positive_costs chain (fun _ => 2) typ.
Proof. intros H. apply positive_dims; auto. Qed.
Lemma ring_positive : positive_costs ring ring_dim None.
Proof.
  apply positive_dims; [discriminate|]. intros i e H He. simpl in H. case_vertex H; simpl in He; case_vertex He; unfold ring_dim; simpl; lia.
Qed.
Lemma chain_connected : connected chain.
Proof.
  assert (A : forall i, In i (vertices chain) -> clos_refl_trans nat (adjacent chain) i 2).
  { intros i H. assert (H' := H). simpl in H. case_vertex H; [apply rt_step|apply rt_step|apply rt_refl];
      (split; [exact H'|split; [simpl; auto|]]); [exists 1|exists 2]; simpl; auto. }
  intros i j Hi Hj. eapply rt_trans; [apply A, Hi|apply GreedyProofs.adj_sym, A, Hj].
Qed.
Lemma apart_not_connected : ~ connected apart.
Proof.
  intros C. assert (H := C 0 1 ltac:(simpl; auto) ltac:(simpl; auto)). apply clos_rt_rt1n in H. inversion H as [|y z (_ & Hy & e & H1 & H2) HC]; subst.
  simpl in Hy. case_vertex Hy; simpl in H1, H2.
  - clear H1 H2. assert (G : forall x y, clos_refl_trans_1n nat (adjacent apart) x y -> x = 0 -> y = 0).
    { clear. induction 1 as [|x y z AD _ IH]; auto. intros ->. apply IH. destruct AD as (_ & Hy & e & H1 & H2). simpl in Hy. case_vertex Hy; auto. simpl in *. destruct H1 as [<-|[]]. destruct H2 as [H2|[]]. discriminate. }
    discriminate (G 0 1 HC eq_refl).
  - destruct H1 as [<-|[]]. destruct H2 as [H2|[]]. discriminate.
Qed.

(** ** C25: the brute-force search is optimal *)
Theorem C25_optimal : forall symdiff verts dim typ, symdiff_ok symdiff -> wf_graph verts dim ->
  0 < List.length verts -> (typ = None -> diag_uniform verts dim) ->
  exists sq c, bruteForce symdiff verts typ = Ok (sq, c) /\
    complete (fun _ _ => True) (join_cost verts dim typ) (groups0 verts) sq c /\
    (exists t, spans verts t /\ tree_cost verts dim typ t = c) /\
    forall t, spans verts t -> c <= tree_cost verts dim typ t.
Proof. exact bf_optimal. Qed.
Print Assumptions C25_optimal.
Example C25_example : wf_graph ring ring_dim /\ diag_uniform ring ring_dim /\ bruteForce sd ring None = Ok ([(0, 2); (1, 0)], 24).
Proof. split; [exact ring_wf|]. split; [exact ring_uniform|]. vm_compute. reflexivity. Qed.
Example C25_example_diagonal : wf_graph chain (fun _ => 2) /\ diag_uniform chain (fun _ => 2) /\
  bruteForce sd chain (Some 10) = Ok ([(0, 1); (0, 2)], 110) /\ bruteForce sd chain None = Ok ([(0, 1); (0, 2)], 6).
Proof. split; [exact chain_wf|]. split; [exact chain_uniform|]. split; vm_compute; reflexivity. Qed.
(** the proviso cannot be dropped: with exact dimensions, a closed group of diagonal tensors beside another
    diagonal tensor makes the search raise *)
Theorem C25_without_open_edge_refuted : exists verts dim, wf_graph verts dim /\ 0 < List.length verts /\
  (forall e, 0 < dim e) /\ (forall e e', dim e = dim e') /\ bruteForce sd verts None = Err IndexError.
Proof.
  exists [([0],[2],true);([0],[2],true);([1],[2],true)], (fun _ => 2). split; [|split; [simpl; lia|split; [lia|split; [auto|vm_compute; reflexivity]]]].
  apply Build_wf_graph.
  - intros i H. simpl in H. case_vertex H; apply nodup_dec; reflexivity.
  - intros i H. simpl in H. case_vertex H; reflexivity.
  - apply count_le2 with (k := 2); reflexivity.
  - reflexivity.
Qed.
Print Assumptions C25_without_open_edge_refuted.

(** ** C26: the capped search is optimal *)
Theorem C26_optimal : forall symdiff verts dim typ, symdiff_ok symdiff -> wf_graph verts dim ->
  forall fuel sq c, positive_costs verts dim typ -> capping symdiff verts typ fuel = Ok (sq, c) ->
  complete (joinable verts) (join_cost verts dim typ) (groups0 verts) sq c /\
  (exists t, spans verts t /\ no_diag_outer verts t /\ tree_cost verts dim typ t = c) /\
  forall t, spans verts t -> no_diag_outer verts t -> c <= tree_cost verts dim typ t.
Proof. exact cap_optimal. Qed.
Print Assumptions C26_optimal.
(** positive dimensions make every cost positive *)
Theorem C26_positive_dimensions : forall verts dim typ, (forall d, typ = Some d -> 0 < d) ->
  (forall i e, In i (vertices verts) -> In e (vedges verts i) -> 0 < dim e) -> positive_costs verts dim typ.
Proof. exact positive_dims. Qed.
Print Assumptions C26_positive_dimensions.
Example C26_example : wf_graph ring ring_dim /\ positive_costs ring ring_dim None /\ capping sd ring None 10 = Ok ([(0, 2); (1, 0)], 24).
Proof. split; [exact ring_wf|]. split; [exact ring_positive|]. vm_compute. reflexivity. Qed.
(** the ban on outer products of diagonal tensors costs something: 200 instead of 110 *)
Example C26_example_diagonal : wf_graph chain (fun _ => 2) /\ positive_costs chain (fun _ => 2) (Some 10) /\
  capping sd chain (Some 10) 20 = Ok ([(1, 2); (0, 1)], 200).
Proof. split; [exact chain_wf|]. split; [apply chain_positive; intros d E; injection E; lia|]. vm_compute. reflexivity. Qed.

(** ** C27: termination of the capped search *)
Theorem C27_terminates : forall symdiff verts dim typ, symdiff_ok symdiff -> wf_graph verts dim ->
  positive_costs verts dim typ -> 0 < List.length verts ->
  (typ = None -> forall i, In i (vertices verts) -> vshape verts i <> []) ->
  (exists i, In i (vertices verts) /\ vdiag verts i = false) \/ connected verts ->
  exists r fuel0, forall fuel, fuel0 <= fuel -> capping symdiff verts typ fuel = Ok r.
Proof. exact cap_stops. Qed.
Print Assumptions C27_terminates.
(** with exact dimensions a tensor without legs makes the search raise at once *)
Theorem C27_no_legs_raises : forall symdiff verts typ fuel, typ = None ->
  (exists i, In i (vertices verts) /\ vshape verts i = []) -> capping symdiff verts typ fuel = Err ValueError.
Proof. exact capping_no_min. Qed.
Print Assumptions C27_no_legs_raises.
Theorem C27_runs_forever : forall symdiff verts dim typ, symdiff_ok symdiff -> wf_graph verts dim ->
  (typ = None -> forall i, In i (vertices verts) -> vshape verts i <> []) -> 2 <= List.length verts ->
  (forall i, In i (vertices verts) -> vdiag verts i = true) -> ~ connected verts ->
  forall fuel, capping symdiff verts typ fuel = Err OutOfFuel.
Proof. exact cap_never. Qed.
Print Assumptions C27_runs_forever.
Theorem C27_zero_costs_run_forever : forall symdiff verts dim typ, symdiff_ok symdiff -> wf_graph verts dim ->
  (typ = None -> forall i, In i (vertices verts) -> vshape verts i <> []) -> 2 <= List.length verts ->
  zero_costs verts dim typ -> forall fuel, capping symdiff verts typ fuel = Err OutOfFuel.
Proof. exact cap_zero. Qed.
Print Assumptions C27_zero_costs_run_forever.
Example C27_example : wf_graph chain (fun _ => 2) /\ connected chain /\ positive_costs chain (fun _ => 2) None /\
  (exists i, In i (vertices chain) /\ vdiag chain i = false).
Proof. split; [exact chain_wf|]. split; [exact chain_connected|]. split; [apply chain_positive; discriminate|]. exists 2. simpl. auto. Qed.
Example C27_example_forever : wf_graph apart (fun _ => 2) /\ (forall i, In i (vertices apart) -> vdiag apart i = true) /\ ~ connected apart.
Proof. split; [exact apart_wf|]. split; [intros i H; simpl in H; case_vertex H; reflexivity|exact apart_not_connected]. Qed.
(** two vectors of dimension 0 *)
Example C27_example_zero : let vs := [([0],[0],false);([1],[0],false)] in wf_graph vs (fun _ => 0) /\ zero_costs vs (fun _ => 0) None.
Proof.
  split; [apply Build_wf_graph|].
  - intros i H. simpl in H. case_vertex H; apply nodup_dec; reflexivity.
  - intros i H. simpl in H. case_vertex H; reflexivity.
  - apply count_le2 with (k := 2); reflexivity.
  - reflexivity.
  - intros [|i [|j G1]] [|k [|l G2]] N HI N1 N2 _; try congruence.
    + assert (Hi := HI i ltac:(simpl; auto)). assert (Hk := HI k ltac:(simpl; auto)). simpl in Hi, Hk.
      case_vertex Hi; case_vertex Hk; try reflexivity; exfalso; inversion N as [|? ? NI _]; apply NI; simpl; auto.
    + apply NoDup_incl_length in HI; auto. rewrite app_length in HI. simpl in HI. lia.
    + apply NoDup_incl_length in HI; auto. simpl in HI. rewrite app_length in HI. simpl in HI. lia.
    + apply NoDup_incl_length in HI; auto. simpl in HI. rewrite app_length in HI. simpl in HI. lia.
Qed.

(** ** C28: generated sequences are complete *)
Theorem C28_bruteForce : forall symdiff verts dim typ, symdiff_ok symdiff -> wf_graph verts dim ->
  forall sq c, 0 < List.length verts -> (typ = None -> diag_uniform verts dim) -> bruteForce symdiff verts typ = Ok (sq, c) ->
  List.length sq = List.length verts - 1 /\ complete (fun _ _ => True) (join_cost verts dim typ) (groups0 verts) sq c.
Proof. exact bf_complete. Qed.
Print Assumptions C28_bruteForce.
Theorem C28_capping : forall symdiff verts dim typ, symdiff_ok symdiff -> wf_graph verts dim ->
  forall fuel sq c, capping symdiff verts typ fuel = Ok (sq, c) ->
  List.length sq = List.length verts - 1 /\ complete (joinable verts) (join_cost verts dim typ) (groups0 verts) sq c.
Proof. exact cap_complete. Qed.
Print Assumptions C28_capping.
Theorem C28_greedy : forall symdiff verts dim, symdiff_ok symdiff -> wf_graph verts dim ->
  forall sq c, 0 < List.length verts -> greedySearch symdiff verts = Ok (sq, c) ->
  List.length sq = List.length verts - 1 /\ complete (touching verts) (join_cost verts dim None) (groups0 verts) sq c /\
  Forall (fun '(a, b) => a < b) sq.
Proof. exact greedy_complete. Qed.
Print Assumptions C28_greedy.
(** the order a < b inside a step is not kept by the two optimal searches *)
Theorem C28_order_refuted : exists verts dim, wf_graph verts dim /\ diag_uniform verts dim /\ positive_costs verts dim None /\
  (exists sq c, bruteForce sd verts None = Ok (sq, c) /\ ~ Forall (fun '(a, b) => a < b) sq) /\
  (exists fuel sq c, capping sd verts None fuel = Ok (sq, c) /\ ~ Forall (fun '(a, b) => a < b) sq).
Proof.
  exists ring, ring_dim. split; [exact ring_wf|]. split; [exact ring_uniform|]. split; [exact ring_positive|].
  assert (N : ~ Forall (fun '(a, b) => a < b) [(0, 2); (1, 0)]).
  { intros H. inversion H as [|? ? _ H2]; subst. inversion H2; subst. lia. }
  split; [exists [(0, 2); (1, 0)], 24|exists 10, [(0, 2); (1, 0)], 24]; (split; [vm_compute; reflexivity|exact N]).
Qed.
Print Assumptions C28_order_refuted.

(** ** C29: the greedy search works exactly on connected networks *)
Theorem C29_connected : forall symdiff verts dim, symdiff_ok symdiff -> wf_graph verts dim ->
  0 < List.length verts -> connected verts -> exists sq c, greedySearch symdiff verts = Ok (sq, c) /\
  complete (touching verts) (join_cost verts dim None) (groups0 verts) sq c.
Proof. exact greedy_connected. Qed.
Print Assumptions C29_connected.
Theorem C29_disconnected : forall symdiff verts dim, symdiff_ok symdiff -> wf_graph verts dim ->
  0 < List.length verts -> ~ connected verts ->
  (vdiag verts (List.length verts - 1) = true -> vshape verts (List.length verts - 1) <> []) ->
  greedySearch symdiff verts = Err ValueError.
Proof. exact greedy_disconnected. Qed.
Print Assumptions C29_disconnected.
(** the remaining case, a diagonal tensor without legs in the last place, raises another exception *)
Theorem C29_disconnected_scalar_last : forall symdiff verts dim, symdiff_ok symdiff -> wf_graph verts dim ->
  0 < List.length verts -> ~ connected verts ->
  vdiag verts (List.length verts - 1) = true -> vshape verts (List.length verts - 1) = [] ->
  greedySearch symdiff verts = Err IndexError.
Proof. exact greedy_scalar_last. Qed.
Print Assumptions C29_disconnected_scalar_last.
Example C29_example : wf_graph chain (fun _ => 2) /\ connected chain /\ greedySearch sd chain = Ok ([(0, 2); (0, 1)], 8) /\
  wf_graph apart (fun _ => 2) /\ ~ connected apart /\ vshape apart 1 <> [].
Proof.
  split; [exact chain_wf|]. split; [exact chain_connected|]. split; [vm_compute; reflexivity|]. split; [exact apart_wf|]. split; [exact apart_not_connected|]. discriminate.
Qed.

(** ** C30: the subset iterator *)
Theorem C30_splits_once : forall x, (0 <= x)%Z -> StronglySorted Z.lt (subsetIterator x) /\
  (forall a, In a (subsetIterator x) -> (0 < a)%Z /\ (0 < x - a)%Z /\ Z.land a (x - a) = 0%Z /\ Z.lor a (x - a) = x) /\
  (forall a b, (0 < a)%Z -> (0 < b)%Z -> Z.land a b = 0%Z -> Z.lor a b = x ->
    (In a (subsetIterator x) /\ ~ In b (subsetIterator x)) \/ (In b (subsetIterator x) /\ ~ In a (subsetIterator x))).
Proof. exact splits_once. Qed.
Print Assumptions C30_splits_once.
Example C30_example : subsetIterator 13 = [1; 4; 5]%Z.
Proof. reflexivity. Qed.
