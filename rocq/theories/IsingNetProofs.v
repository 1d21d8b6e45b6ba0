(** Linking the sites; the value of the network and the sum over configurations. *)
From Coq Require Import List Arith Bool String Ascii ZArith Permutation Lia Reals Lra.
From Verif Require Import Base Sums NdModel NdProofs HeapModel FuncsModel FuncsProofs TensorModel ContractModel SearchModel GraphModel GraphSpec GraphProofs
  TensorSpec NetSpec FtnNetSpec SumpairsProofs NetProofs CtorProofs LinkProofs FreshNetProofs RealSR IsingModel IsingSpec IsingAlgebra IsingProofs MergeProofs.
Import ListNotations.
Local Open Scope nat_scope.

Lemma map_index_nth (l L : list nat) : NoDup l -> List.length L = List.length l ->
  L = map (fun e => nth (match index_of e l with Some k => k | None => 0 end) L 0) l.
Proof.
  intros N E. apply (nth_ext _ _ 0 0); [now rewrite map_length|]. intros k Hk. rewrite E in Hk.
  set (f := fun e => nth (match index_of e l with Some k => k | None => 0 end) L 0). rewrite (nth_indep (map f l) 0 (f 0)) by (now rewrite map_length). rewrite map_nth. unfold f.
  destruct (index_of_In l (nth k l 0)) as (j & Ej); [now apply nth_In|]. rewrite Ej. f_equal. destruct (index_of_nth _ _ _ Ej) as (A & B). apply (NoDup_nth l 0) in A; auto.
Qed.
Lemma prodL_combine_map {X} (f : X -> R) (g : X -> nat) (F : R -> nat -> R) : forall l : list X, prodL (combine (map f l) (map g l)) (fun p => F (fst p) (snd p)) = prodL l (fun x => F (f x) (g x)).
Proof. induction l as [|x l IH]; cbn [map combine prodL fst snd]; [reflexivity|]. now rewrite IH. Qed.
Lemma prod_entries_prodL (h : heap) ts s : prod_entries h ts s = prodL ts (fun t => entry h t s).
Proof. induction ts as [|t ts IH]; cbn [prod_entries prodL]; [reflexivity|]. now rewrite IH. Qed.
Lemma edge_prod_seq (X : nat -> nat -> R) (E0 : list (nat * nat * R)) : forall l k, (forall i a b w, nth_error l i = Some (a, b, w) -> nth_error E0 (k + i) = Some (a, b, w)) ->
  edge_prod X k (map bond_edge l) = prodL (seq k (List.length l)) (fun e => rmul (X (ea E0 e) e) (X (eb E0 e) e)).
Proof.
  induction l as [|[[a b] w] l IH]; intros k H; cbn [map bond_edge edge_prod List.length seq prodL]; [reflexivity|]. rewrite IH.
  - pose proof (H 0 a b w eq_refl) as H0. rewrite Nat.add_0_r in H0. apply (nth_error_nth _ _ (0, 0, 0%R)) in H0. unfold ea at 2, eb at 2. rewrite H0. reflexivity.
  - intros i a1 b1 w1 Hi. replace (S k + i) with (k + S i) by lia. apply (H (S i)). exact Hi.
Qed.

Section Link.
Variable n : nat.
Variable EE : list (nat * nat * R).
Variable g : graph R.
Hypothesis GI : ginv n (map bond_edge EE) g.
Variable es : list nat.
Hypothesis ES : Permutation es (seq 0 (List.length EE)).
Hypothesis IG : ising_graph n EE.
Variable h : heap.
Variable ts : list nat.
Hypothesis So : Forall2 (site_ok EE es h) (seq 0 n) ts.
Hypothesis Nt : NoDup ts.
Hypothesis Nl : NoDup (all_legs h ts).
Notation inc v := (incident v 0 (map bond_edge EE)).
Notation ea := (ea EE). Notation eb := (eb EE). Notation ew := (ew EE).

Definition tv (v : nat) : nat := nth v ts 0.
Definition lg (v e : nat) : nat := nth (match index_of e (inc v) with Some k => k | None => 0 end) (legs_of h (tv v)) 0.
Lemma ts_len : List.length ts = n.
Proof. apply Forall2_length in So. rewrite seq_length in So. auto. Qed.
Lemma Forall2_nth {X Y} (P : X -> Y -> Prop) : forall l l' k x, Forall2 P l l' -> nth_error l k = Some x -> exists y, nth_error l' k = Some y /\ P x y.
Proof. induction l as [|a l IH]; intros l' k x F Hk; inversion F; subst; destruct k; simpl in *; try discriminate; [injection Hk as <-; eauto|eauto]. Qed.
Lemma tv_nth v : v < n -> nth_error ts v = Some (tv v).
Proof. intros H. apply nth_error_nth'. now rewrite ts_len. Qed.
Lemma tv_In v : v < n -> In (tv v) ts.
Proof. intros H. eapply nth_error_In, tv_nth; auto. Qed.
Lemma tv_inj v v' : v < n -> v' < n -> tv v = tv v' -> v = v'.
Proof. intros H H' E. apply (NoDup_nth ts 0) in E; auto; now rewrite ts_len. Qed.
Lemma tv_so v : v < n -> site_ok EE es h v (tv v).
Proof.
  intros H. assert (E : nth_error (seq 0 n) v = Some v) by (rewrite (nth_error_nth' _ 0) by (now rewrite seq_length); now rewrite seq_nth).
  destruct (Forall2_nth _ _ _ _ _ So E) as (t & Et & P). rewrite (tv_nth v H) in Et. injection Et as <-. exact P.
Qed.
Lemma ts_tv t : In t ts -> exists v, v < n /\ t = tv v.
Proof. intros H. apply In_nth_error in H as (v & Hv). assert (L : v < n) by (rewrite <- ts_len; apply nth_error_Some; congruence). exists v. split; auto. rewrite (tv_nth v L) in Hv. congruence. Qed.
Lemma lg_legs v : v < n -> legs_of h (tv v) = map (lg v) (inc v).
Proof. intros H. unfold lg. apply map_index_nth; [apply (inc_NoDup n EE IG)|apply (so_len _ _ _ _ _ (tv_so v H))]. Qed.
Lemma lg_In v e : v < n -> In e (inc v) -> In (lg v e) (legs_of h (tv v)).
Proof. intros H He. rewrite lg_legs by auto. now apply in_map. Qed.
Lemma lg_inj v e v' e' : v < n -> v' < n -> In e (inc v) -> In e' (inc v') -> lg v e = lg v' e' -> v = v' /\ e = e'.
Proof.
  intros H H' He He' E. assert (v = v').
  { apply tv_inj; auto. apply (one_owner h ts _ _ (lg v e) Nl); auto using tv_In, lg_In. rewrite E. auto using lg_In. }
  subst v'. split; auto. pose proof (wt_nodup _ _ (so_wf _ _ _ _ _ (tv_so v H))) as N. rewrite lg_legs in N by auto. 
  clear -N He He' E. revert N He He'. generalize (inc v). induction l as [|x l IH]; simpl; intros N He He'; [destruct He|]. inversion N as [|? ? N1 N2]; subst.
  destruct He as [->|He]; destruct He' as [->|He']; auto; exfalso; apply N1; [rewrite E|rewrite <- E]; now apply in_map.
Qed.
Lemma lg_name v e : v < n -> In e (inc v) -> l_name (legs h (lg v e)) = NStr (lname es (other EE v e) e).
Proof.
  intros H He. pose proof (so_names _ _ _ _ _ (tv_so v H)) as N. unfold names_of in N. rewrite lg_legs, map_map in N by auto.
  revert He N. generalize (inc v). induction l as [|x l IH]; simpl; intros He N; [destruct He|]. injection N as N1 N2. destruct He as [->|He]; auto.
Qed.
Lemma lg_first v e : v < n -> In e (inc v) -> first_named h (tv v) (NStr (lname es (other EE v e) e)) (lg v e).
Proof.
  intros H He. destruct (in_split _ _ He) as (u & w & E). exists (map (lg v) u), (map (lg v) w). rewrite lg_legs by auto. rewrite E, map_app. split; [reflexivity|]. split; [now apply lg_name|].
  intros l Hl. apply in_map_iff in Hl as (e' & <- & He'). assert (He2 : In e' (inc v)) by (rewrite E, in_app_iff; auto). rewrite lg_name by auto. intros X. injection X as X.
  apply (lname_inj EE es ES) in X; [|apply inc_In in He2; tauto|apply inc_In in He; tauto]. subst e'. pose proof (inc_NoDup n EE IG v) as N. rewrite E in N. apply NoDup_remove_2 in N. apply N. rewrite in_app_iff; auto.
Qed.
Definition la (e : nat) : nat := lg (ea e) e.
Definition lb (e : nat) : nat := lg (eb e) e.
Definition ps (K : list nat) : list (nat * nat) := map (fun e => (la e, lb e)) K.
Lemma ea_lt e : e < List.length EE -> ea e < n. Proof. intros H. apply (ig_ends _ _ IG _ _ _ (edge_In EE e H)). Qed.
Lemma eb_lt e : e < List.length EE -> eb e < n. Proof. intros H. apply (ig_ends _ _ IG _ _ _ (edge_In EE e H)). Qed.
Lemma ea_eb e : e < List.length EE -> ea e <> eb e. Proof. intros H. apply (ig_loops _ _ IG _ _ _ (edge_In EE e H)). Qed.
Lemma ea_inc e : e < List.length EE -> In e (inc (ea e)). Proof. intros H. apply inc_In. auto. Qed.
Lemma eb_inc e : e < List.length EE -> In e (inc (eb e)). Proof. intros H. apply inc_In. auto. Qed.
Hint Resolve ea_lt eb_lt ea_eb ea_inc eb_inc : core.
Lemma la_legs e : e < List.length EE -> In (la e) (legs_of h (tv (ea e))). Proof. intros. apply lg_In; auto. Qed.
Lemma lb_legs e : e < List.length EE -> In (lb e) (legs_of h (tv (eb e))). Proof. intros. apply lg_In; auto. Qed.
Lemma plegs_ps K l : In l (plegs (ps K)) <-> exists e, In e K /\ (l = la e \/ l = lb e).
Proof.
  unfold ps, plegs. rewrite !map_map. cbn [fst snd]. rewrite in_app_iff, !in_map_iff. split.
  - intros [(e & <- & H)|(e & <- & H)]; eauto.
  - intros (e & H & [->| ->]); eauto.
Qed.
Lemma ps_NoDup K : NoDup K -> (forall e, In e K -> e < List.length EE) -> NoDup (plegs (ps K)).
Proof.
  intros N H. unfold ps, plegs. rewrite !map_map. cbn [fst snd]. apply NoDup_app_intro.
  - clear -N H So Nt Nl IG ES. induction K as [|e K IH]; simpl; [constructor|]. inversion N as [|? ? N1 N2]; subst. constructor; [|apply IH; auto; intros; apply H; simpl; auto].
    intros X. apply in_map_iff in X as (e' & E & He'). apply lg_inj in E; [|apply ea_lt, H; simpl; auto|apply ea_lt, H; simpl; auto|apply ea_inc, H; simpl; auto|apply ea_inc, H; simpl; auto]. destruct E as (_ & ->). auto.
  - clear -N H So Nt Nl IG ES. induction K as [|e K IH]; simpl; [constructor|]. inversion N as [|? ? N1 N2]; subst. constructor; [|apply IH; auto; intros; apply H; simpl; auto].
    intros X. apply in_map_iff in X as (e' & E & He'). apply lg_inj in E; [|apply eb_lt, H; simpl; auto|apply eb_lt, H; simpl; auto|apply eb_inc, H; simpl; auto|apply eb_inc, H; simpl; auto]. destruct E as (_ & ->). auto.
  - intros l H1 H2. apply in_map_iff in H1 as (e & <- & He). apply in_map_iff in H2 as (e' & E & He'). symmetry in E. apply lg_inj in E; auto. destruct E as (E1 & E2). subst e'. apply (ea_eb e (H e He)). exact E1.
Qed.
Lemma la_dim e : e < List.length EE -> dim_of h (la e) = 2.
Proof. intros H. apply (so_dims _ _ _ _ _ (tv_so _ (ea_lt e H))), la_legs, H. Qed.
Lemma lb_dim e : e < List.length EE -> dim_of h (lb e) = 2.
Proof. intros H. apply (so_dims _ _ _ _ _ (tv_so _ (eb_lt e H))), lb_legs, H. Qed.
Lemma first_named_same (h1 : heap) t nm l : (forall x, l_name (legs h1 x) = l_name (legs h x)) -> tens h1 = tens h -> first_named h t nm l -> first_named h1 t nm l.
Proof. intros E T (u & v & A & B & C). exists u, v. unfold legs_of in *. rewrite T, E. repeat split; auto. intros l' Hl'. rewrite E. auto. Qed.
Lemma linkEdges_ok : forall K (h1 : heap), NoDup K -> (forall e, In e K -> e < List.length EE) -> tens h1 = tens h -> (forall x, l_name (legs h1 x) = l_name (legs h x)) -> linkable h1 (ps K) ->
  exists h2, iterM (linkEdge g es ts) K h1 = (h2, Ok tt) /\ links_made h1 h2 (ps K).
Proof.
  induction K as [|e K IH]; intros h1 N H T Nm L; cbn [iterM].
  - exists h1. split; [reflexivity|]. constructor; [apply links_added_refl|intros l []].
  - assert (He : e < List.length EE) by (apply H; simpl; auto). inversion N as [|? ? N1 N2]; subst. change (ps (e :: K)) with ((la e, lb e) :: ps K) in *.
    destruct (linkable_cons h1 _ _ _ L) as (Ne & I1 & I2 & D & L').
    assert (E : linkEdge g es ts e h1 = (linked_heap h1 (la e) (lb e), Ok tt)).
    { unfold linkEdge. unfold bind at 1, liftR at 1. rewrite (edgeOf_ok n EE g GI e He). cbn [e_b e_a]. unfold getLegName. rewrite (index_es EE es ES e He).
      unfold bind at 1, liftR at 1. unfold bind at 1, liftR at 1. rewrite (tv_nth (ea e)), (tv_nth (eb e)) by auto. unfold bind at 1, liftR at 1. unfold bind at 1, liftR at 1.
      assert (O1 : other EE (ea e) e = eb e) by (unfold other; now rewrite Nat.eqb_refl).
      assert (O2 : other EE (eb e) e = ea e) by (unfold other; destruct (Nat.eqb_spec (eb e) (ea e)); auto).
      assert (D1 : Forall2 (denotes h1 (Some (tv (ea e)))) [RStr (strNat (eb e) ++ "-" ++ strNat (eidx es e))%string] [Some (la e)]).
      { constructor; [|constructor]. apply dn_name. apply first_named_same; auto. pose proof (lg_first (ea e) e ltac:(auto) ltac:(auto)) as LF. rewrite O1 in LF. exact LF. }
      assert (D2 : Forall2 (denotes h1 (Some (tv (eb e)))) [RStr (strNat (ea e) ++ "-" ++ strNat (eidx es e))%string] [Some (lb e)]).
      { constructor; [|constructor]. apply dn_name. apply first_named_same; auto. pose proof (lg_first (eb e) e ltac:(auto) ltac:(auto)) as LF. rewrite O2 in LF. exact LF. }
      unfold bind at 1. rewrite (makeLink_read h1 _ _ _ _ _ _ D1 D2 eq_refl). cbn [combine mapM]. unfold bind at 1. rewrite linkPair_ok by auto. reflexivity. }
    unfold bind at 1. rewrite E. destruct (IH (linked_heap h1 (la e) (lb e))) as (h2 & E2 & M2); auto.
    + intros x Hx. apply H. simpl; auto.
    + intros x. rewrite <- Nm. apply (la_fields _ _ _ (linked_heap_added h1 (la e) (lb e) Ne)).
    + exists h2. split; [exact E2|]. eapply links_made_cons; eauto.
Qed.
Lemma free_all l : In l (all_legs h ts) -> l_bond (legs h l) = None /\ l < nleg h.
Proof.
  intros Hl. apply all_legs_In in Hl as (t & Ht & Hl). destruct (ts_tv t Ht) as (v & Hv & ->). pose proof (tv_so v Hv) as S0. split; [apply (so_free _ _ _ _ _ S0); auto|apply (wt_alloc _ _ (so_wf _ _ _ _ _ S0)); auto].
Qed.
Lemma es_lt e : In e es -> e < List.length EE. Proof. apply (es_In EE es ES). Qed.
Lemma links_ok_es : exists h2, iterM (linkEdge g es ts) es h = (h2, Ok tt) /\ links_added h h2 (ps es).
Proof.
  destruct (linkEdges_ok es h) as (h2 & E & M0); auto using es_lt.
  - apply (es_NoDup EE es ES).
  - split; [|split].
    + apply ps_NoDup; auto using es_lt. apply (es_NoDup EE es ES).
    + intros l Hl. apply (plegs_ps es l) in Hl as (e & He & K). apply es_lt in He. assert (In l (all_legs h ts)) as X.
      { apply all_legs_In. destruct K as [-> | ->]; [exists (tv (ea e))|exists (tv (eb e))]; split; auto using tv_In, la_legs, lb_legs. }
      apply free_all in X. tauto.
    + intros p Hp. apply in_map_iff in Hp as (e & <- & He). apply es_lt in He. cbn [fst snd]. now rewrite la_dim, lb_dim.
  - exists h2. split; auto. apply M0.
Qed.

(** ** the value *)
Variable h2 : heap.
Hypothesis LA : links_added h h2 (ps es).
Lemma L_wf : forall t, In t ts -> wf_tensor h t /\ owned h t.
Proof. intros t Ht. destruct (ts_tv t Ht) as (v & Hv & ->). split; [apply (so_wf _ _ _ _ _ (tv_so v Hv))|apply (so_owned _ _ _ _ _ (tv_so v Hv))]. Qed.
Lemma L_free : forall l, In l (all_legs h ts) -> l_bond (legs h l) = None. Proof. intros l Hl. now apply free_all. Qed.
Lemma L_dim : forall p, In p (ps es) -> dim_of h (fst p) = dim_of h (snd p).
Proof. intros p Hp. apply in_map_iff in Hp as (e & <- & He). apply es_lt in He. cbn [fst snd]. now rewrite la_dim, lb_dim. Qed.
Lemma L_np : NoDup (plegs (ps es)). Proof. apply ps_NoDup; auto using es_lt. apply (es_NoDup EE es ES). Qed.
Lemma L_across : forall l l', In (l, l') (ps es) -> exists t t', In t ts /\ In t' ts /\ t <> t' /\ In l (legs_of h t) /\ In l' (legs_of h t').
Proof.
  intros l l' H. apply in_map_iff in H as (e & E & He). injection E as <- <-. apply es_lt in He. exists (tv (ea e)), (tv (eb e)). repeat split; auto using tv_In, la_legs, lb_legs.
  intros X. apply tv_inj in X; auto. apply (ea_eb e He X).
Qed.
Lemma net_wf : wf_net h2 ts. Proof. exact (F_wf h h2 ts (ps es) L_wf Nt Nl L_free LA L_dim). Qed.
Lemma net_closed : free_legs h2 ts = [].
Proof.
  destruct (free_legs h2 ts) as [|l L] eqn:E; [reflexivity|]. exfalso. assert (In l (free_legs h2 ts)) as X by (rewrite E; simpl; auto).
  apply (fresh_free h h2 ts (ps es) L_wf Nt Nl L_free LA L_dim L_across) in X as (X & Y). apply Y. apply all_legs_In in X as (t & Ht & Hl). destruct (ts_tv t Ht) as (v & Hv & ->).
  rewrite lg_legs in Hl by auto. apply in_map_iff in Hl as (e & <- & He). apply inc_In in He as (He & K). apply plegs_ps. exists e. split; [apply (es_In EE es ES); auto|]. destruct K as [<-|<-]; auto.
Qed.
Definition X (c : list nat) (s : nat -> nat) (v e : nat) : R := aget (IsingEdgeMatrix (ew e)) [nth v c 0; s (lg v e)].
Lemma sites_value s : (forall l, In l (all_legs h ts) -> s l < 2) ->
  prod_entries h ts s = sumL (indices (repeat 2 n)) (fun c => prodL (seq 0 (List.length EE)) (fun e => rmul (X c s (ea e) e) (X c s (eb e) e))).
Proof.
  intros Hs. rewrite prod_entries_prodL. assert (E : ts = map tv (seq 0 n)).
  { apply (nth_ext _ _ 0 0); [now rewrite map_length, seq_length, ts_len|]. intros k Hk. rewrite ts_len in Hk. rewrite (nth_indep (map tv (seq 0 n)) 0 (tv 0)) by (now rewrite map_length, seq_length). rewrite map_nth, seq_nth by auto. reflexivity. }
  rewrite E at 1. rewrite prodL_map. transitivity (prodL (seq 0 n) (fun v => sumN 2 (fun sg => prodL (inc v) (fun e => aget (IsingEdgeMatrix (ew e)) [sg; s (lg v e)])))).
  - apply prodL_ext. intros v Hv. apply in_seq in Hv. rewrite (so_entry _ _ _ _ _ (tv_so v ltac:(lia))).
    + apply sumN_ext. intros sg _. rewrite lg_legs by lia. rewrite map_map. apply (prodL_combine_map ew (fun e => s (lg v e)) (fun w y => aget (IsingEdgeMatrix w) [sg; y])).
    + intros l Hl. rewrite (so_dims _ _ _ _ _ (tv_so v ltac:(lia))) by auto. apply Hs. apply all_legs_In. exists (tv v). split; auto. apply tv_In. lia.
  - rewrite prod_sum, seq_length. apply sumL_ext. intros c Hc. apply indices_In, inrange_length in Hc. rewrite repeat_length in Hc.
    rewrite (prod_combine_nth n c (fun v sg => prodL (inc v) (fun e => aget (IsingEdgeMatrix (ew e)) [sg; s (lg v e)])) Hc).
    rewrite (incident_prod (X c s) n (map bond_edge EE) 0).
    + apply edge_prod_seq. intros; assumption.
    + intros a b w HI. apply in_map_iff in HI as ([[a1 b1] w1] & Eq & HI). cbn in Eq. injection Eq as -> <- ->. apply (ig_ends _ _ IG) in HI. split; [tauto|]. intros b' Eb. injection Eb as <-. tauto.
Qed.
Definition spin_weight (c : list nat) : R := prodL (seq 0 (List.length EE)) (fun e => if Nat.eqb (nth (ea e) c 0) (nth (eb e) c 0) then exp (ew e) else exp (- ew e)).
Lemma net_value s : netval h2 ts s = sumL (indices (repeat 2 n)) spin_weight.
Proof.
  rewrite (fresh_value h h2 ts (ps es) L_wf Nt Nl L_free LA L_np L_dim L_across s).
  rewrite (sumpairs_ext_in (dim_of h) _ (fun s => sumL (indices (repeat 2 n)) (fun c => prodL es (fun e => rmul (aget (IsingEdgeMatrix (ew e)) [nth (ea e) c 0; s (la e)]) (aget (IsingEdgeMatrix (ew e)) [nth (eb e) c 0; s (lb e)])))) (ps es) s L_dim).
  - rewrite sumpairs_sumL. apply sumL_ext. intros c Hc. apply indices_In in Hc.
    rewrite (sumpairs_factor (dim_of h) la lb (fun e i j => rmul (aget (IsingEdgeMatrix (ew e)) [nth (ea e) c 0; i]) (aget (IsingEdgeMatrix (ew e)) [nth (eb e) c 0; j])) es s L_np).
    unfold spin_weight. rewrite (prodL_perm es _ _ ES). apply prodL_ext. intros e He. apply in_seq in He. assert (He' : e < List.length EE) by lia. rewrite la_dim by auto.
    assert (B : forall v, v < n -> nth v c 0 < 2).
    { intros v Hv. pose proof (inrange_length _ _ Hc) as Lc. rewrite repeat_length in Lc. apply (inr_repeat 2 n c Hc). apply nth_In. lia. }
    apply edge_sum; auto. apply (ig_pos _ _ IG _ _ _ (edge_In EE e He')).
  - intros s' Hs _. rewrite sites_value.
    + apply sumL_ext. intros c _. rewrite <- (prodL_perm es _ _ ES). reflexivity.
    + intros l Hl. apply all_legs_In in Hl as (t & Ht & Hl). destruct (ts_tv t Ht) as (v & Hv & ->). pose proof Hl as Hl2. rewrite lg_legs in Hl by auto. apply in_map_iff in Hl as (e & <- & He).
      rewrite <- (so_dims _ _ _ _ _ (tv_so v Hv) _ Hl2). apply Hs. apply inc_In in He as (He & K). apply plegs_ps. exists e. split; [apply (es_In EE es ES); auto|]. destruct K as [<-|<-]; auto.
Qed.
End Link.
