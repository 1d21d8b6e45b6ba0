(** The network built from a graph. *)
From Coq Require Import List Arith Bool String Ascii ZArith Permutation Lia Reals Lra DecimalString DecimalNat.
From Verif Require Import Base Sums NdModel NdProofs HeapModel FuncsModel FuncsProofs TensorModel ContractModel SearchModel GraphModel GraphSpec GraphProofs
  TensorSpec NetSpec FtnNetSpec SumpairsProofs NetProofs CtorProofs LinkProofs FreshNetProofs RealSR IsingModel IsingSpec IsingAlgebra.
Import ListNotations.
Local Open Scope nat_scope.
Notation heap := (HeapModel.heap R).

(** ** names *)
Lemma uint_no_dash u : forall x, after_dash (NilEmpty.string_of_uint u ++ x)%string = after_dash x.
Proof. induction u; intros x; simpl; auto. Qed.
Lemma after_dash_name u k : after_dash (strNat u ++ "-" ++ strNat k)%string = Some (strNat k).
Proof. unfold strNat. rewrite uint_no_dash. reflexivity. Qed.
Lemma strNat_inj a b : strNat a = strNat b -> a = b.
Proof.
  unfold strNat. intros E. assert (Nat.to_uint a = Nat.to_uint b) as E2.
  { assert (Some (Nat.to_uint a) = Some (Nat.to_uint b)) as X by (rewrite <- !NilEmpty.usu; now rewrite E). now injection X. }
  rewrite <- (Unsigned.of_to a), <- (Unsigned.of_to b). now rewrite E2.
Qed.
Lemma name_inj u k u' k' : (strNat u ++ "-" ++ strNat k = strNat u' ++ "-" ++ strNat k')%string -> k = k'.
Proof. intros E. apply strNat_inj. apply (f_equal after_dash) in E. rewrite !after_dash_name in E. now injection E. Qed.

(** ** an edge of the network *)
Lemma edge_shape w : ashape (IsingEdgeMatrix w) = [2; 2]. Proof. reflexivity. Qed.
Lemma edge_wfa w : wfa (IsingEdgeMatrix w). Proof. reflexivity. Qed.
Lemma sinh_nonneg w : (0 <= w)%R -> (0 <= sinh w)%R.
Proof.
  intros H. unfold sinh. assert (exp (- w) <= exp w)%R; [|lra]. destruct (Req_dec w 0) as [->|N]; [rewrite Ropp_0; lra|]. apply Rlt_le, exp_increasing. lra.
Qed.
Lemma cosh_nonneg w : (0 <= cosh w)%R.
Proof. unfold cosh. pose proof (exp_pos w). pose proof (exp_pos (- w)). lra. Qed.
Lemma edge_sum w x y : (0 <= w)%R -> x < 2 -> y < 2 ->
  sumN 2 (fun i => rmul (aget (IsingEdgeMatrix w) [x; i]) (aget (IsingEdgeMatrix w) [y; i])) = (if Nat.eqb x y then exp w else exp (- w))%R.
Proof.
  intros Hw Hx Hy. assert (Hc : (sqrt (cosh w * / 2) * sqrt (cosh w * / 2) = cosh w * / 2)%R) by (apply sqrt_sqrt; pose proof (cosh_nonneg w); lra).
  assert (Hs : (sqrt (sinh w * / 2) * sqrt (sinh w * / 2) = sinh w * / 2)%R) by (apply sqrt_sqrt; pose proof (sinh_nonneg w Hw); lra).
  assert (E1 : exp w = (cosh w + sinh w)%R) by (unfold cosh, sinh; lra). assert (E2 : exp (- w) = (cosh w - sinh w)%R) by (unfold cosh, sinh; lra).
  destruct x as [|[|x]]; [| |lia]; (destruct y as [|[|y]]; [| |lia]); cbn; rewrite ?E1, ?E2; lra.
Qed.

(** ** one site *)
Section Graph.
Variable n : nat.
Variable EE : list (nat * nat * R).
Variable g : graph R.
Hypothesis GI : ginv n (map bond_edge EE) g.
Variable es : list nat.
Hypothesis ES : Permutation es (seq 0 (List.length EE)).
Hypothesis IG : ising_graph n EE.

Definition ea (e : nat) : nat := fst (fst (nth e EE (0, 0, 0%R))).
Definition eb (e : nat) : nat := snd (fst (nth e EE (0, 0, 0%R))).
Definition ew (e : nat) : R := snd (nth e EE (0, 0, 0%R)).
Definition other (v e : nat) : nat := if Nat.eqb v (ea e) then eb e else ea e.
Definition eidx (e : nat) : nat := match index_of e es with Some k => k | None => 0 end.
Definition lname (u e : nat) : string := (strNat u ++ "-" ++ strNat (eidx e))%string.
Notation inc v := (incident v 0 (map bond_edge EE)).

Lemma es_In e : In e es <-> e < List.length EE.
Proof. split; intros H; [apply (Permutation_in e ES) in H; apply in_seq in H; lia|apply (Permutation_in e (Permutation_sym ES)), in_seq; lia]. Qed.
Lemma es_NoDup : NoDup es. Proof. eapply Permutation_NoDup; [symmetry; exact ES|apply seq_NoDup]. Qed.
Lemma edge_nth e : e < List.length EE -> nth_error EE e = Some (ea e, eb e, ew e).
Proof. intros H. rewrite (nth_error_nth' EE (0, 0, 0%R) H). f_equal. unfold ea, eb, ew. destruct (nth e EE (0, 0, 0%R)) as [[a b] w]. reflexivity. Qed.
Lemma edge_In e : e < List.length EE -> In (ea e, eb e, ew e) EE.
Proof. intros H. eapply nth_error_In, edge_nth; auto. Qed.
Lemma edgeOf_ok e : e < List.length EE -> edgeOf g e = Ok (mkEdge (ea e) (Some (eb e)) (ew e)).
Proof.
  intros H. unfold edgeOf. assert (X : nth_error (map desc (g_store g)) e = Some (ea e, Some (eb e), ew e)).
  { rewrite (gi_store _ _ _ GI), nth_error_map, (edge_nth e H). reflexivity. }
  rewrite nth_error_map in X. destruct (nth_error (g_store g) e) as [[a b w]|]; [|discriminate]. unfold desc in X. cbn in X. injection X as -> -> ->. reflexivity.
Qed.
Lemma inc_In v e : In e (inc v) <-> e < List.length EE /\ (ea e = v \/ eb e = v).
Proof.
  rewrite incident_In. split.
  - intros (a & b & w & _ & H & K). rewrite Nat.sub_0_r, nth_error_map in H. assert (L : e < List.length EE) by (apply nth_error_Some; intros X; rewrite X in H; discriminate).
    rewrite (edge_nth e L) in H. cbn in H. injection H as <- <- <-. split; auto. destruct K as [K|K]; [auto|injection K; auto].
  - intros (L & K). exists (ea e), (Some (eb e)), (ew e). rewrite Nat.sub_0_r, nth_error_map, (edge_nth e L). cbn. repeat split; [lia|]. destruct K as [K|K]; [auto|right; now rewrite K].
Qed.
Lemma inc_NoDup v : NoDup (inc v).
Proof.
  assert (G : forall l k, (forall a b w, In (a, b, w) l -> a <> b) -> NoDup (incident v k (map bond_edge l)) /\ forall x, In x (incident v k (map bond_edge l)) -> k <= x).
  { induction l as [|[[a b] w] l IH]; intros k H; cbn [map bond_edge incident]; [split; [constructor|intros x []]|].
    destruct (IH (S k)) as (I1 & I2); [intros a1 b1 w1 H1; eapply H; simpl; eauto|]. assert (Nab : a <> b) by (eapply H; simpl; eauto).
    assert (NI : ~ In k (incident v (S k) (map bond_edge l))) by (intros X; apply I2 in X; lia).
    destruct (Nat.eqb_spec a v) as [->|Na]; destruct (Nat.eqb_spec b v) as [->|Nb]; cbn [app]; try contradiction; (split; [try constructor; auto|intros x Hx; simpl in Hx; try (destruct Hx as [<-|Hx]; [lia|]); apply I2 in Hx; lia]). }
  apply G. apply (ig_loops _ _ IG).
Qed.
Lemma getWeights_ok v : getWeights g v = Ok (map ew (inc v)).
Proof.
  unfold getWeights. rewrite (gi_v _ _ _ GI). assert (G : forall l, (forall e, In e l -> e < List.length EE) -> rmapM (edgeWeightOf g) l = Ok (map ew l)).
  { induction l as [|e l IH]; intros H; cbn [rmapM map]; [reflexivity|]. assert (X : edgeWeightOf g e = Ok (ew e)).
    { assert (L : e < List.length EE) by (apply H; simpl; auto). pose proof (edgeOf_ok e L) as X. unfold edgeOf in X. unfold edgeWeightOf. destruct (nth_error (g_store g) e); [|discriminate]. injection X as ->. reflexivity. }
    rewrite X. cbn [rbind]. rewrite IH by (intros; apply H; simpl; auto). reflexivity. }
  apply G. intros e He. apply inc_In in He. tauto.
Qed.
Lemma index_es e : e < List.length EE -> index_of e es = Some (eidx e).
Proof. intros H. apply es_In in H. unfold eidx. destruct (index_of_In es e H) as (k & ->). reflexivity. Qed.
Lemma eidx_inj e e' : e < List.length EE -> e' < List.length EE -> eidx e = eidx e' -> e = e'.
Proof. intros H H' E. apply (index_of_inj es e e' (eidx e)); [apply index_es; auto|rewrite E; apply index_es; auto]. Qed.
Lemma lname_inj u e u' e' : e < List.length EE -> e' < List.length EE -> lname u e = lname u' e' -> e = e'.
Proof. intros H H' E. apply eidx_inj; auto. apply (name_inj u _ u' _ E). Qed.
Lemma getLabels_ok v : getLabels g es v = Ok (map (fun e => lname (other v e) e) (inc v)).
Proof.
  unfold getLabels. rewrite (gi_v _ _ _ GI). assert (G : forall l, (forall e, In e l -> In e (inc v)) ->
    rmapM (fun e => letr x := edgeOf g e in letr u := edgeAnotherSide x v in getLegName es e u) l = Ok (map (fun e => lname (other v e) e) l)).
  { induction l as [|e l IH]; intros H; cbn [rmapM map]; [reflexivity|]. assert (He : In e (inc v)) by (apply H; simpl; auto). apply inc_In in He as (L & K).
    rewrite (edgeOf_ok e L). cbn [rbind]. assert (X : edgeAnotherSide (mkEdge (ea e) (Some (eb e)) (ew e)) v = Ok (Some (other v e))).
    { unfold edgeAnotherSide, other. cbn. destruct (Nat.eqb_spec v (ea e)) as [->|N]; [reflexivity|]. destruct K as [K|K]; [congruence|]. rewrite K, Nat.eqb_refl. reflexivity. }
    rewrite X. cbn [rbind getLegName]. rewrite (index_es e L). cbn [rbind]. rewrite IH by (intros; apply H; simpl; auto). reflexivity. }
  apply G. auto.
Qed.
Lemma inc_ne v : v < n -> inc v <> [].
Proof.
  intros Hv X. destruct (ig_deg _ _ IG v Hv) as (a & b & w & HI & K). apply In_nth_error in HI as (e & He). assert (L : e < List.length EE) by (apply nth_error_Some; congruence).
  rewrite (edge_nth e L) in He. injection He as E1 E2 E3. assert (In e (inc v)) as Y by (apply inc_In; split; auto; rewrite E1, E2; destruct K; auto). rewrite X in Y. destruct Y.
Qed.
(** what a site tensor is *)
Record site_ok (h : heap) (v t : nat) : Prop := {
  so_wf : wf_tensor h t; so_owned : owned h t; so_diag : t_diag (tens h t) = false; so_like : t_like (tens h t) = false;
  so_len : List.length (legs_of h t) = List.length (inc v);
  so_names : names_of h t = map (fun e => NStr (lname (other v e) e)) (inc v);
  so_dims : forall l, In l (legs_of h t) -> dim_of h l = 2;
  so_free : forall l, In l (legs_of h t) -> l_bond (legs h l) = None;
  so_entry : forall s, in_bounds h (legs_of h t) s ->
    entry h t s = sumN 2 (fun sg => prodL (combine (map ew (inc v)) (map s (legs_of h t))) (fun p => aget (IsingEdgeMatrix (fst p)) [sg; snd p])) }.
Lemma siteTensor_ok (h : heap) v : inc v <> [] -> exists h' t, siteTensor g es v h = (h', Ok t) /\ new_tensor h h' t None /\ site_ok h' v t.
Proof.
  intros Hv. unfold siteTensor. unfold bind at 1, liftR at 1. rewrite getWeights_ok. unfold bind at 1, liftR at 1. rewrite getLabels_ok.
  unfold IsingSiteTensor, degree. rewrite (gi_v _ _ _ GI), !map_length. unfold bind at 1. rewrite Nat.eqb_refl. cbn [assert ret]. unfold bind at 1. cbn [assert ret].
  assert (Ne : map ew (inc v) <> []) by (intros X; apply map_eq_nil in X; auto).
  destruct (site_array IsingEdgeMatrix 2 edge_shape (mkArr [2] [1%R; 1%R]) (map ew (inc v)) eq_refl) as (b & a & Eb & Ea & Wa & Sa & Va); [|exact Ne|].
  { intros x Hx. destruct x as [|[|x]]; [reflexivity|reflexivity|lia]. }
  rewrite map_length in Eb, Sa, Va. unfold bind at 1, liftR at 1. rewrite Eb. unfold bind at 1, liftR at 1. rewrite Ea.
  assert (AW : args_wf h (Some a) None) by (constructor; [exact Wa|exact I]).
  pose proof (mkDense_spec h None (Some (map NStr (map (fun e => lname (other v e) e) (inc v)))) (Some a) None None false AW) as Sp.
  destruct (mkDense None (Some (map NStr (map (fun e => lname (other v e) e) (inc v)))) (Some a) None None false h) as (h', [t|e]).
  2:{ destruct Sp as (_ & X & _). exfalso. apply X. cbn. rewrite Sa, !map_length, repeat_length. reflexivity. }
  destruct Sp as (_ & NT & Wt & Ow & Dg & Lk & _ & _ & Nm & _ & Dm & Dt). exists h', t. split; [reflexivity|]. split; [exact NT|].
  specialize (Nm _ eq_refl). specialize (Dm a eq_refl eq_refl eq_refl). destruct (Dt a eq_refl eq_refl) as (a' & Ta & Da).
  assert (Len : List.length (legs_of h' t) = List.length (inc v)) by (apply (f_equal (@List.length nat)) in Dm; unfold dims_of in Dm; rewrite map_length, Sa, repeat_length in Dm; exact Dm).
  pose proof (wt_data _ _ Wt) as DO. unfold data_ok in DO. rewrite Lk, Ta, Dg in DO. destruct DO as (_ & DO). change (ashape a' = dims_of h' t) in DO. rewrite Dm in DO.
  constructor; auto.
  - rewrite Nm, map_map. reflexivity.
  - intros l Hl. assert (In (dim_of h' l) (dims_of h' t)) as X by (unfold dims_of; now apply in_map). rewrite Dm, Sa in X. apply repeat_spec in X. exact X.
  - intros l Hl. pose proof (nt_legs _ _ _ _ NT) as (_ & _ & X). auto.
  - intros s Hs. unfold entry, entry_of. rewrite Ta, Dg. change (t_legs (tens h' t)) with (legs_of h' t). transitivity (aget a (map s (legs_of h' t))).
    + unfold aget. now rewrite DO, Da.
    + rewrite Va; [reflexivity|]. rewrite <- Sa, <- Dm. unfold dims_of. apply inrange_map. exact Hs.
Qed.

(** ** all sites *)
Record grown (h h' : heap) : Prop := {
  gr_legs : forall l, l < nleg h -> legs h' l = legs h l; gr_tens : forall t, t < ntens h -> tens h' t = tens h t;
  gr_nleg : nleg h <= nleg h'; gr_ntens : ntens h <= ntens h'; gr_nbond : nbond h' = nbond h }.
Lemma grown_refl (h : heap) : grown h h. Proof. constructor; auto. Qed.
Lemma grown_trans (h1 h2 h3 : heap) : grown h1 h2 -> grown h2 h3 -> grown h1 h3.
Proof. intros [a b c d e] [a' b' c' d' e']. constructor; [intros; rewrite a'; auto; lia|intros; rewrite b'; auto; lia|lia|lia|congruence]. Qed.
Lemma new_grown (h h' : heap) t : new_tensor h h' t None -> grown h h'.
Proof. intros NT. destruct (nt_legs _ _ _ _ NT) as (A & _ & _). constructor; [exact A|apply (nt_tens _ _ _ _ NT)|rewrite (nt_nleg _ _ _ _ NT); lia|rewrite (nt_ntens _ _ _ _ NT); lia|apply NT]. Qed.
Lemma site_grown (h h' : heap) v t : grown h h' -> site_ok h v t -> site_ok h' v t.
Proof.
  intros G [a b c d e f i j k]. pose proof (wt_id _ _ a) as Ti. pose proof (wt_alloc _ _ a) as Al.
  assert (El : legs_of h' t = legs_of h t) by (unfold legs_of; now rewrite (gr_tens _ _ G)). assert (Eg : forall l, In l (legs_of h t) -> legs h' l = legs h l) by (intros l Hl; apply (gr_legs _ _ G), Al, Hl).
  assert (Ed : forall l, In l (legs_of h t) -> dim_of h' l = dim_of h l) by (intros l Hl; unfold dim_of; now rewrite Eg).
  constructor.
  - apply (wf_same h h'); auto; [now apply (gr_tens _ _ G)|apply G|apply G].
  - intros l Hl. rewrite El in Hl. rewrite Eg by auto. now apply b.
  - now rewrite (gr_tens _ _ G).
  - now rewrite (gr_tens _ _ G).
  - now rewrite El.
  - rewrite <- f. unfold names_of. rewrite El. apply map_ext_in. intros l Hl. now rewrite Eg.
  - intros l Hl. rewrite El in Hl. rewrite Ed; auto.
  - intros l Hl. rewrite El in Hl. rewrite Eg; auto.
  - intros s Hs. rewrite El in *. unfold entry. rewrite (gr_tens _ _ G) by auto. apply k. intros l Hl. rewrite <- Ed by auto. apply Hs, Hl.
Qed.
Lemma sites_ok : forall vs (h : heap), (forall v, In v vs -> inc v <> []) ->
  exists h' ts, mapM (siteTensor g es) vs h = (h', Ok ts) /\ grown h h' /\ Forall2 (site_ok h') vs ts /\ NoDup ts /\ NoDup (all_legs h' ts) /\
    (forall t, In t ts -> ntens h <= t) /\ forall l, In l (all_legs h' ts) -> nleg h <= l.
Proof.
  induction vs as [|v vs IH]; intros h Hv; cbn [mapM].
  - exists h, []. split; [reflexivity|]. repeat split; auto; try constructor; try contradiction; auto.
  - destruct (siteTensor_ok h v ltac:(apply Hv; simpl; auto)) as (h1 & t & E1 & NT & So). destruct (IH h1 ltac:(intros; apply Hv; simpl; auto)) as (h2 & ts & E2 & G2 & F2 & N1 & N2 & B1 & B2).
    exists h2, (t :: ts). unfold bind at 1. rewrite E1. unfold bind at 1. rewrite E2. cbn [ret]. pose proof (new_grown _ _ _ NT) as G1. split; [reflexivity|]. split; [eapply grown_trans; eauto|].
    pose proof (site_grown _ _ _ _ G2 So) as So2. split; [constructor; auto|].
    assert (El : legs_of h2 t = legs_of h1 t) by (unfold legs_of; rewrite (gr_tens _ _ G2); [reflexivity|apply (wt_id _ _ (so_wf _ _ _ So))]).
    pose proof (nt_id _ _ _ _ NT) as Ti. pose proof (nt_ntens _ _ _ _ NT) as Tn. destruct (nt_legs _ _ _ _ NT) as (_ & Sq & _).
    split; [constructor; auto; intros X; apply B1 in X; lia|]. cbn [all_legs flat_map]. fold (all_legs h2 ts). split.
    + apply NoDup_app_intro; [apply (wt_nodup _ _ (so_wf _ _ _ So2))|exact N2|]. intros l H1 H2. rewrite El in H1. apply (wt_alloc _ _ (so_wf _ _ _ So)) in H1. apply B2 in H2. lia.
    + split; [intros x [<-|Hx]; [lia|apply B1 in Hx; lia]|]. intros l Hl. apply in_app_iff in Hl as [Hl|Hl].
      * rewrite El, Sq in Hl. apply in_seq in Hl. lia.
      * apply B2 in Hl. pose proof (gr_nleg _ _ G1). lia.
Qed.
End Graph.
