(** Proofs about the graph model. *)
From Coq Require Import List Arith Bool Lia ZArith Permutation.
From Verif Require Import Base FuncsModel FuncsProofs SearchModel GraphModel GraphSpec.
Import ListNotations.
Local Open Scope nat_scope.

Section G.
Context {W : Type}.
Notation graph := (graph W).

Definition desc (e : edge W) : nat * option nat * W := (e_a e, e_b e, e_w e).
Lemma incident_app i (l l' : list (nat * option nat * W)) : forall k, incident i k (l ++ l') = incident i k l ++ incident i (k + List.length l) l'.
Proof.
  induction l as [|[[a b] w] l IH]; intros k; [simpl; f_equal; lia|].
  change (((a, b, w) :: l) ++ l') with ((a, b, w) :: (l ++ l')). cbn [incident List.length]. rewrite IH.
  replace (S k + List.length l) with (k + S (List.length l)) by lia. rewrite <- !app_assoc. reflexivity.
Qed.

(** the collected edges *)
Definition push (res : list nat) (e : nat) : list nat := if inb e res then res else res ++ [e].
Lemma push_In res e x : In x (push res e) <-> In x res \/ x = e.
Proof.
  unfold push. destruct (inb e res) eqn:E; [apply inb_spec in E|].
  - split; [auto|]. intros [H| ->]; auto.
  - rewrite in_app_iff. simpl. intuition.
Qed.
Lemma push_NoDup res e : NoDup res -> NoDup (push res e).
Proof.
  unfold push. destruct (inb e res) eqn:E; [auto|]. apply inb_false in E. intros H.
  apply NoDup_app; [exact H|repeat constructor; simpl; tauto|]. intros x H1 [->|[]]. auto.
Qed.
Lemma pushes_In l : forall res x, In x (fold_left push l res) <-> In x res \/ In x l.
Proof. induction l as [|e l IH]; intros res x; simpl; [tauto|]. rewrite IH, push_In. intuition. Qed.
Lemma pushes_NoDup l : forall res, NoDup res -> NoDup (fold_left push l res).
Proof. induction l as [|e l IH]; intros res H; simpl; auto. apply IH, push_NoDup, H. Qed.
Lemma collect_In (g : graph) x : In x (collectEdges g) <-> exists i, i < g_n g /\ In x (g_v g i).
Proof.
  unfold collectEdges. change (fun (res : list nat) (e : nat) => if inb e res then res else res ++ [e]) with push.
  assert (H : forall l res, In x (fold_left (fun res i => fold_left push (g_v g i) res) l res) <-> In x res \/ exists i, In i l /\ In x (g_v g i)).
  { induction l as [|i l IH]; intros res; simpl; [firstorder|]. rewrite IH, pushes_In. firstorder. subst. auto. }
  rewrite H. split; [intros [[]|(i & H1 & H2)]; exists i; split; auto; apply in_seq in H1; lia|].
  intros (i & H1 & H2). right. exists i. split; auto. apply in_seq. lia.
Qed.
Lemma collect_NoDup (g : graph) : NoDup (collectEdges g).
Proof.
  unfold collectEdges. change (fun (res : list nat) (e : nat) => if inb e res then res else res ++ [e]) with push.
  assert (H : forall l res, NoDup res -> NoDup (fold_left (fun res i => fold_left push (g_v g i) res) l res)).
  { induction l as [|i l IH]; intros res H; simpl; auto. apply IH, pushes_NoDup, H. }
  apply H. constructor.
Qed.

(** ** the invariant of a history *)
Record ginv (n : nat) (l : list (nat * option nat * W)) (g : graph) : Prop := {
  gi_n : g_n g = n;
  gi_store : map desc (g_store g) = l;
  gi_v : forall i, g_v g i = incident i 0 l;
  gi_ends : forall a b w, In (a, b, w) l -> a < n }.

Lemma ginv_new n : ginv n [] (newGraph n).
Proof. constructor; simpl; auto. intros a b w []. Qed.
Lemma ginv_addEdge n l g i j w : ginv n l g -> 
  match addEdge g i j w with
  | Ok g' => i < n /\ j < n /\ ginv n (l ++ [(i, Some j, w)]) g' /\ g_updated g' = true /\ g_cache g' = g_cache g /\
             g_indexed g' = g_indexed g /\ g_index g' = g_index g
  | Err e => e = AssertionError /\ ~ (i < n /\ j < n)
  end.
Proof.
  intros [In Is Iv Ie]. unfold addEdge. rewrite In.
  destruct (Nat.ltb_spec i n); [|split; [reflexivity|lia]]. destruct (Nat.ltb_spec j n); [|split; [reflexivity|lia]].
  cbn [vertexAddEdge fst snd g_n g_store g_v g_cache g_updated g_indexed g_index].
  assert (L : List.length (g_store g) = List.length l) by (rewrite <- Is, map_length; reflexivity).
  split; [auto|]. split; [auto|]. split; [|repeat split]. apply Build_ginv; cbn [g_n g_store g_v].
  - exact In.
  - rewrite map_app, Is. reflexivity.
  - intros v. rewrite incident_app. cbn [incident]. rewrite app_nil_r, <- Iv, L, Nat.add_0_l.
    unfold upd. rewrite (Nat.eqb_sym i v), (Nat.eqb_sym j v).
    destruct (Nat.eqb_spec v j) as [->|Hj].
    + destruct (Nat.eqb_spec j i) as [->|Hi]; [rewrite <- app_assoc; reflexivity|reflexivity].
    + destruct (Nat.eqb_spec v i) as [->|Hi]; [reflexivity|simpl; rewrite app_nil_r; reflexivity].
  - intros a b w' H1. apply in_app_or in H1. destruct H1 as [H1|[[= <- <- <-]|[]]]; eauto.
Qed.
Lemma ginv_addFree n l g i w : ginv n l g ->
  match addFreeEdge g i w with
  | Ok g' => i < n /\ ginv n (l ++ [(i, None, w)]) g' /\ g_updated g' = g_updated g /\ g_cache g' = g_cache g /\
             g_indexed g' = g_indexed g /\ g_index g' = g_index g
  | Err e => e = IndexError /\ ~ i < n
  end.
Proof.
  intros [In Is Iv Ie]. unfold addFreeEdge. rewrite In. destruct (Nat.ltb_spec i n); [|split; [reflexivity|lia]].
  cbn [vertexAddEdge fst]. assert (L : List.length (g_store g) = List.length l) by (rewrite <- Is, map_length; reflexivity).
  split; [auto|]. split; [|repeat split]. apply Build_ginv; cbn [g_n g_store g_v].
  - exact In.
  - rewrite map_app, Is. reflexivity.
  - intros v. rewrite incident_app. cbn [incident]. rewrite app_nil_r, <- Iv, L, Nat.add_0_l. unfold upd.
    rewrite (Nat.eqb_sym i v). destruct (Nat.eqb_spec v i) as [->|Hi]; [reflexivity|simpl; rewrite app_nil_r; reflexivity].
  - intros a b w' H1. apply in_app_or in H1. destruct H1 as [H1|[[= <- <- <-]|[]]]; eauto.
Qed.
Lemma ginv_get n l g : ginv n l g -> ginv n l (fst (getEdges g)).
Proof. intros [In Is Iv Ie]. unfold getEdges. destruct (g_cache g), (g_updated g); constructor; auto. Qed.
Lemma ginv_index n l g : ginv n l g -> ginv n l (addEdgeIndex g).
Proof.
  intros H. unfold addEdgeIndex. destruct (g_indexed g); auto. pose proof (ginv_get _ _ _ H) as [In Is Iv Ie].
  destruct (getEdges g) as [g1 es]. constructor; auto.
Qed.
Lemma added_snoc n ops (o : op W) : added n (ops ++ [o]) = added n ops ++ adds n o.
Proof. unfold added. rewrite flat_map_app. simpl. rewrite app_nil_r. reflexivity. Qed.
Lemma run_snoc n ops (o : op W) : run n (ops ++ [o]) = call (run n ops) o.
Proof. unfold run. rewrite fold_left_app. reflexivity. Qed.
Lemma run_inv n ops : ginv n (added n ops) (run n ops).
Proof.
  induction ops as [|o ops IH] using rev_ind; [apply ginv_new|]. rewrite added_snoc, run_snoc.
  destruct o as [i j w|i w| |]; cbn [call adds].
  - pose proof (ginv_addEdge _ _ _ i j w IH) as H. destruct (addEdge (run n ops) i j w) as [g'|e].
    + destruct H as (H1 & H2 & H3 & _). apply Nat.ltb_lt in H1, H2. rewrite H1, H2. exact H3.
    + destruct H as (_ & H). destruct (Nat.ltb_spec i n), (Nat.ltb_spec j n); cbn [andb]; rewrite ?app_nil_r; auto. exfalso. auto.
  - pose proof (ginv_addFree _ _ _ i w IH) as H. destruct (addFreeEdge (run n ops) i w) as [g'|e].
    + destruct H as (H1 & H3 & _). apply Nat.ltb_lt in H1. rewrite H1. exact H3.
    + destruct H as (_ & H). destruct (Nat.ltb_spec i n); rewrite ?app_nil_r; auto. exfalso. auto.
  - rewrite app_nil_r. apply ginv_get, IH.
  - rewrite app_nil_r. apply ginv_index, IH.
Qed.

(** the numbers listed at the vertices are those of all edges *)
Lemma incident_In i x : forall l k, In x (incident (W := W) i k l) <-> 
  exists a b w, k <= x /\ nth_error l (x - k) = Some (a, b, w) /\ (a = i \/ b = Some i).
Proof.
  induction l as [|[[a b] w] l IH]; intros k; cbn [incident].
  - split; [intros []|]. intros (a & b & w & _ & H & _). destruct (x - k); discriminate.
  - rewrite !in_app_iff, IH. split.
    + intros [H|[H|(a' & b' & w' & H1 & H2 & H3)]].
      * destruct (Nat.eqb_spec a i) as [->|]; [|destruct H]. destruct H as [->|[]]. exists i, b, w. rewrite Nat.sub_diag. auto.
      * destruct b as [b|]; [|destruct H]. destruct (Nat.eqb_spec b i) as [->|]; [|destruct H]. destruct H as [->|[]].
        exists a, (Some i), w. rewrite Nat.sub_diag. auto.
      * exists a', b', w'. replace (x - k) with (S (x - S k)) by lia. simpl. split; [lia|auto].
    + intros (a' & b' & w' & H1 & H2 & H3). destruct (Nat.eq_dec x k) as [->|N].
      * rewrite Nat.sub_diag in H2. simpl in H2. injection H2 as <- <- <-. destruct H3 as [->| ->].
        -- left. rewrite Nat.eqb_refl. simpl. auto.
        -- right. left. rewrite Nat.eqb_refl. simpl. auto.
      * right. right. exists a', b', w'. replace (x - k) with (S (x - S k)) in H2 by lia. simpl in H2. split; [lia|auto].
Qed.
Lemma collect_all n l g x : ginv n l g -> In x (collectEdges g) <-> x < List.length l.
Proof.
  intros [In Is Iv Ie]. rewrite collect_In, In. split.
  - intros (i & _ & H). rewrite Iv in H. apply incident_In in H. destruct H as (a & b & w & _ & H & _).
    rewrite Nat.sub_0_r in H. apply nth_error_Some. rewrite H. discriminate.
  - intros H. destruct (nth_error l x) as [[[a b] w]|] eqn:E; [|apply nth_error_None in E; lia].
    exists a. split; [eapply Ie, nth_error_In, E|]. rewrite Iv. apply incident_In. exists a, b, w. rewrite Nat.sub_0_r. split; [lia|auto].
Qed.

(** *** current or stale *)
Definition dirty (g : graph) : bool := match g_cache g with None => true | Some _ => g_updated g end.
Lemma getEdges_spec (g : graph) : snd (getEdges g) = (if dirty g then collectEdges g else match g_cache g with Some es => es | None => [] end) /\
  dirty (fst (getEdges g)) = false /\ g_cache (fst (getEdges g)) = Some (snd (getEdges g)).
Proof. unfold getEdges, dirty. destruct (g_cache g) eqn:E, (g_updated g) eqn:E2; cbn; rewrite ?E, ?E2; auto. Qed.
Lemma index_cache (g : graph) : g_indexed g = false -> g_cache (addEdgeIndex g) = Some (snd (getEdges g)) /\ dirty (addEdgeIndex g) = false.
Proof.
  intros H. unfold addEdgeIndex. rewrite H. pose proof (getEdges_spec g) as (_ & H1 & H2). unfold dirty in *.
  destruct (getEdges g) as [g1 es]. cbn [fst snd] in *. cbn. rewrite H2 in *. auto.
Qed.
(** between a query and the next ordinary edge the answer does not change *)
Lemma stale_steps n es post : (forall o, In o post -> ~ two_ended n o) ->
  forall g : graph, g_n g = n -> dirty g = false -> g_cache g = Some es ->
  let g' := fold_left call post g in g_n g' = n /\ dirty g' = false /\ g_cache g' = Some es.
Proof.
  induction post as [|o post IH]; intros N g Gn D C; cbn [fold_left]; [auto|].
  cut (g_n (call g o) = n /\ dirty (call g o) = false /\ g_cache (call g o) = Some es).
  { intros (H1 & H2 & H3). apply IH; auto. intros o' Ho'. apply N. simpl. auto. }
  assert (No : ~ two_ended n o) by (apply N; simpl; auto).
  destruct o as [i j w|i w| |]; cbn [call].
  - unfold addEdge. rewrite Gn. destruct (Nat.ltb_spec i n); [|auto]. destruct (Nat.ltb_spec j n); [|auto].
    exfalso. apply No. exists i, j, w. auto.
  - unfold addFreeEdge. rewrite Gn. destruct (Nat.ltb_spec i n); [|auto]. unfold dirty in *. cbn. rewrite C in *. auto.
  - unfold getEdges, dirty in *. rewrite C in *. rewrite D. cbn [fst]. rewrite C. auto.
  - unfold addEdgeIndex, getEdges, dirty in *. rewrite C in *. rewrite D. destruct (g_indexed g); cbn; rewrite C; auto.
Qed.
Lemma getEdges_stale n pre post : (forall o, In o post -> ~ two_ended (W := W) n o) ->
  snd (getEdges (run n (pre ++ OQuery :: post))) = snd (getEdges (run n pre)).
Proof.
  intros N. unfold run. rewrite fold_left_app. cbn [fold_left call]. fold (run n pre).
  pose proof (getEdges_spec (run n pre)) as (_ & H1 & H2).
  assert (Gn : g_n (fst (getEdges (run n pre))) = n) by apply (gi_n _ _ _ (ginv_get _ _ _ (run_inv n pre))).
  destruct (stale_steps n _ post N _ Gn H1 H2) as (_ & D & C).
  destruct (getEdges_spec (fold_left call post (fst (getEdges (run n pre))))) as (E & _). rewrite E, D, C. reflexivity.
Qed.

(** a history is up to date when nothing was added since the cache was filled *)
Lemma cache_history n ops : dirty (run n ops) = false -> exists pre o post, ops = pre ++ o :: post /\ queries o /\
  (forall o', In o' post -> ~ two_ended (W := W) n o') /\ dirty (run n pre) = true /\
  g_cache (run n ops) = Some (collectEdges (run n pre)).
Proof.
  induction ops as [|o ops IH] using rev_ind; [discriminate|]. rewrite run_snoc. intros D.
  assert (K : dirty (run n ops) = false -> g_cache (call (run n ops) o) = g_cache (run n ops) -> ~ two_ended n o ->
    exists pre o0 post, ops ++ [o] = pre ++ o0 :: post /\ queries o0 /\
      (forall o', In o' post -> ~ two_ended n o') /\ dirty (run n pre) = true /\
      g_cache (call (run n ops) o) = Some (collectEdges (run n pre))).
  { intros D' C' N. destruct (IH D') as (pre & q & post & E & Q & Np & Dp & C). exists pre, q, (post ++ [o]).
    split; [rewrite E, <- app_assoc; reflexivity|]. split; [exact Q|]. split; [|rewrite C'; auto]. intros o' H. apply in_app_or in H. destruct H as [H|[<-|[]]]; auto. }
  assert (Q : queries o -> dirty (run n ops) = true -> g_cache (call (run n ops) o) = Some (collectEdges (run n ops)) -> 
    exists pre o0 post, ops ++ [o] = pre ++ o0 :: post /\ queries o0 /\
      (forall o', In o' post -> ~ two_ended n o') /\ dirty (run n pre) = true /\
      g_cache (call (run n ops) o) = Some (collectEdges (run n pre))).
  { intros Q Dp C. exists ops, o, []. split; [reflexivity|]. split; [exact Q|]. split; [intros ? []|]. split; auto. }
  pose proof (run_inv n ops) as I. destruct o as [i j w|i w| |]; cbn [call] in *.
  - pose proof (ginv_addEdge _ _ _ i j w I) as H. destruct (addEdge (run n ops) i j w) as [g'|e].
    + destruct H as (_ & _ & _ & H1 & _). unfold dirty in D. rewrite H1 in D. destruct (g_cache g'); discriminate.
    + destruct H as (_ & H). apply K; auto. intros (i' & j' & w' & [= <- <- <-] & H1 & H2). auto.
  - pose proof (ginv_addFree _ _ _ i w I) as H. assert (N : ~ two_ended n (OFree i w)) by (intros (? & ? & ? & E & _); discriminate E).
    destruct (addFreeEdge (run n ops) i w) as [g'|e].
    + destruct H as (_ & _ & H1 & H2 & _). apply K; auto. unfold dirty in *. rewrite H2, H1 in D. exact D.
    + apply K; auto.
  - pose proof (getEdges_spec (run n ops)) as (S1 & _ & S2). assert (N : ~ two_ended n (OQuery (W := W))) by (intros (? & ? & ? & E & _); discriminate E).
    destruct (dirty (run n ops)) eqn:Dr.
    + apply Q; [left; reflexivity|reflexivity|]. rewrite S2, S1. reflexivity.
    + apply K; auto. rewrite S2, S1. unfold dirty in Dr. destruct (g_cache (run n ops)); [reflexivity|discriminate].
  - assert (N : ~ two_ended n (OIndex (W := W))) by (intros (? & ? & ? & E & _); discriminate E).
    destruct (g_indexed (run n ops)) eqn:Ix.
    + apply K; auto; unfold addEdgeIndex in *; rewrite Ix in *; auto.
    + pose proof (index_cache _ Ix) as (S1 & S2). pose proof (getEdges_spec (run n ops)) as (S3 & _).
      destruct (dirty (run n ops)) eqn:Dr.
      * apply Q; [right; reflexivity|reflexivity|]. rewrite S1, S3. reflexivity.
      * apply K; auto. rewrite S1, S3. unfold dirty in Dr. destruct (g_cache (run n ops)); [reflexivity|discriminate].
Qed.
Lemma two_ended_dec n (o : op W) : {two_ended n o} + {~ two_ended n o}.
Proof.
  destruct o as [i j w|i w| |]; try (right; intros (? & ? & ? & E & _); discriminate E).
  destruct (lt_dec i n), (lt_dec j n); [left; exists i, j, w; auto| | |]; right; intros (? & ? & ? & [= <- <- <-] & H1 & H2); auto.
Qed.
Lemma getEdges_full n ops x : refreshed (W := W) n ops -> In x (snd (getEdges (run n ops))) <-> x < List.length (added n ops).
Proof.
  intros R. pose proof (getEdges_spec (run n ops)) as (S1 & _). rewrite S1. destruct (dirty (run n ops)) eqn:D.
  - apply (collect_all n), run_inv.
  - destruct (cache_history n ops D) as (pre & o & post & E & Q & N & _ & C). rewrite C.
    rewrite (collect_all n (added n pre)) by apply run_inv.
    assert (Z : added n ops = added n pre).
    { subst ops. unfold added. rewrite flat_map_app. cbn [flat_map]. assert (A0 : adds n o = []) by (destruct Q as [->| ->]; reflexivity).
      rewrite A0. cbn [app]. cut (flat_map (adds n) post = []); [intros ->; apply app_nil_r|].
      assert (H : forall p1 p2, post = p1 ++ p2 -> flat_map (adds n) p2 = []).
      { intros p1 p2. revert p1. induction p2 as [|o' p2 IHp]; intros p1 Ep; [reflexivity|]. cbn [flat_map].
        assert (N' : ~ two_ended n o') by (apply N; rewrite Ep; apply in_or_app; simpl; auto).
        rewrite (IHp (p1 ++ [o'])) by (rewrite <- app_assoc; exact Ep). rewrite app_nil_r.
        destruct o' as [i j w|i w| |]; cbn [adds]; auto.
        - destruct (Nat.ltb_spec i n), (Nat.ltb_spec j n); auto. exfalso. apply N'. exists i, j, w. auto.
        - destruct (Nat.ltb_spec i n) as [Hi|]; auto. exfalso.
          destruct (R (pre ++ o :: p1) i w p2) as (o2 & H1 & H2).
          + rewrite Ep, <- app_assoc. reflexivity.
          + exact Hi.
          + exists o. split; [apply in_or_app; simpl; auto|exact Q].
          + apply (N o2); [rewrite Ep; apply in_or_app; simpl; auto|exact H2]. }
      apply (H [] post). reflexivity. }
    rewrite Z. tauto.
Qed.
Lemma getEdges_NoDup n ops : NoDup (snd (getEdges (run (W := W) n ops))).
Proof.
  pose proof (getEdges_spec (run n ops)) as (S1 & _). rewrite S1. destruct (dirty (run n ops)) eqn:D; [apply collect_NoDup|].
  destruct (cache_history n ops D) as (pre & o & post & _ & _ & _ & _ & C). rewrite C. apply collect_NoDup.
Qed.
Lemma getEdges_complete n ops : refreshed (W := W) n ops ->
  let g := run n ops in
  Permutation (snd (getEdges g)) (seq 0 (List.length (added n ops))) /\
  map (fun e => (e_a e, e_b e, e_w e)) (g_store g) = added n ops.
Proof.
  intros R g. split; [|apply (gi_store _ _ _ (run_inv n ops))].
  apply NoDup_Permutation; [apply getEdges_NoDup|apply seq_NoDup|]. intros x. unfold g. rewrite (getEdges_full n ops x R), in_seq. lia.
Qed.
(** a free edge added after a query, with no ordinary edge after it, is not listed *)
Lemma getEdges_misses n pre i w post : (forall o, In o post -> ~ two_ended (W := W) n o) -> i < n ->
  let ops := pre ++ OQuery :: OFree i w :: post in
  nth_error (added n ops) (List.length (added n pre)) = Some (i, None, w) /\
  ~ In (List.length (added n pre)) (snd (getEdges (run n ops))).
Proof.
  intros N Hi ops. split.
  - unfold ops, added. rewrite flat_map_app. cbn [flat_map adds app]. apply Nat.ltb_lt in Hi. rewrite Hi.
    rewrite nth_error_app2 by lia. rewrite Nat.sub_diag. reflexivity.
  - unfold ops. rewrite getEdges_stale.
    2:{ intros o [<-|H]; [intros (? & ? & ? & E & _); discriminate E|auto]. }
    pose proof (getEdges_spec (run n pre)) as (S1 & _). rewrite S1. intros H.
    assert (K : List.length (added n pre) < List.length (added n pre)); [|lia].
    destruct (dirty (run n pre)) eqn:D; [apply (collect_all n _ _ _ (run_inv n pre)), H|].
    destruct (cache_history n pre D) as (p1 & o & p2 & E & _ & _ & _ & C). rewrite C in H.
    apply (collect_all n _ _ _ (run_inv n p1)) in H. rewrite E in *. unfold added in *. rewrite flat_map_app, app_length in *. lia.
Qed.
Lemma vertex_edges n ops i : g_v (run n ops) i = incident i 0 (added (W := W) n ops).
Proof. apply (gi_v _ _ _ (run_inv n ops)). Qed.

(** *** indices *)
Lemma index_fold es : NoDup es -> forall k0 (f : nat -> option nat) k e, nth_error es k = Some e ->
  fold_left (fun f '(k, e) => upd f e (Some k)) (combine (seq k0 (List.length es)) es) f e = Some (k0 + k).
Proof.
  induction es as [|x es IH]; intros ND k0 f k e H; [destruct k; discriminate|]. inversion ND as [|? ? Nx ND']; subst.
  cbn [List.length seq combine fold_left]. destruct k as [|k]; simpl in H.
  - injection H as ->. rewrite Nat.add_0_r.
    assert (K : forall es k0 (f : nat -> option nat), ~ In e es -> 
      fold_left (fun f '(k, e) => upd f e (Some k)) (combine (seq k0 (List.length es)) es) f e = f e).
    { clear. induction es as [|x es IH]; intros k0 f N; [reflexivity|]. cbn [List.length seq combine fold_left]. rewrite IH by (simpl in N; tauto).
      unfold upd. destruct (Nat.eqb_spec e x) as [->|]; [|reflexivity]. exfalso. apply N. simpl. auto. }
    rewrite K by exact Nx. unfold upd. rewrite Nat.eqb_refl. reflexivity.
  - rewrite (IH ND' (S k0) _ k e H). f_equal. lia.
Qed.
Lemma index_fold_out es : forall k0 (f : nat -> option nat) e, ~ In e es ->
  fold_left (fun f '(k, e) => upd f e (Some k)) (combine (seq k0 (List.length es)) es) f e = f e.
Proof.
  induction es as [|x es IH]; intros k0 f e N; [reflexivity|]. cbn [List.length seq combine fold_left]. rewrite IH by (simpl in N; tauto).
  unfold upd. destruct (Nat.eqb_spec e x) as [->|]; [|reflexivity]. exfalso. apply N. simpl. auto.
Qed.
Lemma addEdgeIndex_first (g : graph) k e : g_indexed g = false -> NoDup (snd (getEdges g)) ->
  nth_error (snd (getEdges g)) k = Some e -> g_index (addEdgeIndex g) e = Some k.
Proof.
  intros H1 H2 H3. unfold addEdgeIndex. rewrite H1. assert (E : g_index (fst (getEdges g)) = g_index g).
  { unfold getEdges. destruct (g_cache g), (g_updated g); reflexivity. }
  destruct (getEdges g) as [g1 es]. cbn [fst snd] in *. cbn [g_index].
  rewrite (index_fold es H2 0 _ k e H3). reflexivity.
Qed.
(** indices stay as they are, and edges added after the first call never get one *)
Lemma index_kept (g : graph) o : g_indexed g = true -> g_indexed (call g o) = true /\ g_index (call g o) = g_index g.
Proof.
  intros H. destruct o as [i j w|i w| |]; cbn [call].
  - unfold addEdge. destruct (i <? g_n g); [|auto]. destruct (j <? g_n g); auto.
  - unfold addFreeEdge. destruct (i <? g_n g); auto.
  - unfold getEdges. destruct (g_cache g), (g_updated g); auto.
  - unfold addEdgeIndex. rewrite H. auto.
Qed.
Lemma index_kept_all ops : forall g : graph, g_indexed g = true -> g_indexed (fold_left call ops g) = true /\ g_index (fold_left call ops g) = g_index g.
Proof.
  induction ops as [|o ops IH]; intros g H; [auto|]. cbn [fold_left]. destruct (index_kept g o H) as [H1 H2].
  destruct (IH _ H1) as [H3 H4]. rewrite H4, H2. auto.
Qed.
Lemma not_indexed n ops : ~ In OIndex ops -> g_indexed (run (W := W) n ops) = false /\ forall e, g_index (run n ops) e = None.
Proof.
  induction ops as [|o ops IH] using rev_ind; intros N; [split; reflexivity|]. rewrite run_snoc.
  destruct IH as [H1 H2]; [intros H; apply N, in_or_app; auto|].
  destruct o as [i j w|i w| |]; cbn [call].
  - unfold addEdge. destruct (i <? g_n (run n ops)); [|auto]. destruct (j <? g_n (run n ops)); auto.
  - unfold addFreeEdge. destruct (i <? g_n (run n ops)); auto.
  - unfold getEdges. destruct (g_cache (run n ops)), (g_updated (run n ops)); auto.
  - exfalso. apply N, in_or_app. simpl. auto.
Qed.
Lemma index_history n pre post : ~ In OIndex pre -> 
  let g := run (W := W) n (pre ++ OIndex :: post) in
  (forall k e, nth_error (snd (getEdges (run n pre))) k = Some e -> g_index g e = Some k) /\
  (forall e, ~ In e (snd (getEdges (run n pre))) -> g_index g e = None).
Proof.
  intros N g. destruct (not_indexed n pre N) as [I1 I2].
  assert (E : g_index g = g_index (addEdgeIndex (run n pre))).
  { unfold g, run. rewrite fold_left_app. cbn [fold_left call]. fold (run n pre). apply index_kept_all.
    unfold addEdgeIndex. rewrite I1. destruct (getEdges (run n pre)). reflexivity. }
  rewrite E. split.
  - intros k e H. apply addEdgeIndex_first; auto. apply getEdges_NoDup.
  - intros e H. unfold addEdgeIndex. rewrite I1. assert (E2 : g_index (fst (getEdges (run n pre))) = g_index (run n pre)).
    { unfold getEdges. destruct (g_cache (run n pre)), (g_updated (run n pre)); reflexivity. }
    destruct (getEdges (run n pre)) as [g1 es]. cbn [fst snd] in *. cbn [g_index]. rewrite index_fold_out by exact H. rewrite E2. apply I2.
Qed.
End G.
