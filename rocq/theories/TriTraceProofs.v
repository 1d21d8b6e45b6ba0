(** Proofs about triangleTensorTrace. *)
From Coq Require Import List Arith Bool String Lia Permutation.
From Verif Require Import Base Sums NdModel NdProofs HeapModel FuncsModel TensorModel TensorSpec TensorProofs ContractModel SvdModel NetSpec FtnModel NamedSpec NetsSpec NetsModel NamedProofs NetsProofs NamedMatProofs
  LinkProofs ShareProofs NetProofs SumpairsProofs PairLinkProofs CtmrgModel CtmrgNetProofs TrgModel TrgSpec TrgProofs TriTrgModel TriTrgSpec TriPairProofs TriStepProofs.
Import ListNotations.
Local Open Scope nat_scope.
Local Open Scope string_scope.
Local Open Scope list_scope.

Section Tt.
Context {A : Type} {HA : SR A}.
Notation heap := (heap A).

Lemma link_loop ta tb (ps : list (string * (lid * lid))) : forall (h : heap), linkable h (map snd ps) ->
  (forall s x y, In (s, (x, y)) ps -> first_named h ta (NStr s) x /\ first_named h tb (NStr s) y) ->
  exists h', iterM (fun lab => bind (makeLink [RStr lab] [RStr lab] (Some ta) (Some tb)) (fun _ => ret tt)) (map fst ps) h = (h', Ok tt) /\ links_made h h' (map snd ps).
Proof.
  induction ps as [|(s, (x, y)) ps IH]; intros h LK FN.
  - exists h. split; [reflexivity|]. split; [apply links_added_refl|intros l []].
  - cbn [map snd fst] in LK |- *. destruct (linkable_cons _ _ _ _ LK) as (Nxy & Nx & Ny & Ed & LK'). destruct (FN s x y) as (F1 & F2); [simpl; auto|].
    pose proof (linked_heap_added h x y Nxy) as LA.
    destruct (IH (linked_heap h x y) LK') as (h' & E & LM).
    + intros s' x' y' Hs. destruct (FN s' x' y') as ((u1 & v1 & E1 & N1 & O1) & (u2 & v2 & E2 & N2 & O2)); [simpl; auto|].
      split; [exists u1, v1|exists u2, v2]; (split; [unfold legs_of in *; now rewrite (la_tens _ _ _ LA)|split; [now rewrite (proj2 (proj2 (la_fields _ _ _ LA _)))|intros l' Hl'; rewrite (proj2 (proj2 (la_fields _ _ _ LA _))); auto]]).
    + exists h'. split; [|eapply links_made_cons; eauto]. cbn [iterM]. unfold bind at 1, bind at 1.
      rewrite (makeLink_read h [RStr s] [RStr s] (Some ta) (Some tb) [Some x] [Some y]); [|repeat constructor; auto|repeat constructor; auto|reflexivity].
      cbn [combine mapM]. unfold bind at 1. rewrite linkPair_ok by auto. unfold bind, ret. exact E.
Qed.

Lemma first_three (h : heap) t n1 n2 n3 x1 x2 x3 : NoDup [n1; n2; n3] -> Permutation (legs_of h t) [x1; x2; x3] -> l_name (legs h x1) = NStr n1 -> l_name (legs h x2) = NStr n2 -> l_name (legs h x3) = NStr n3 ->
  first_named h t (NStr n1) x1 /\ first_named h t (NStr n2) x2 /\ first_named h t (NStr n3) x3.
Proof.
  intros ND P E1 E2 E3. assert (N : NoDup (names_of h t)).
  { unfold names_of. eapply Permutation_NoDup; [apply Permutation_map; symmetry; exact P|]. cbn [map]. rewrite E1, E2, E3. change [NStr n1; NStr n2; NStr n3] with (map NStr [n1; n2; n3]). apply FinFun.Injective_map_NoDup; auto. intros a b E. congruence. }
  split; [|split]; (apply first_of_name; [exact N|eapply Permutation_in; [symmetry; exact P|simpl; auto]|assumption]).
Qed.

Lemma trace_ok (h : heap) a b D : triangle h a D -> triangle h b D -> exists h' t, triangleTensorTrace a b h = (h', Ok t) /\ grown h h' /\ single h' t = Ok (theta D (entry3 h a) (entry3 h b)).
Proof.
  intros Ta Tb. unfold triangleTensorTrace. destruct (copy_named h a _ Ta) as (h1 & ta & E1 & NT1 & T1 & V1). pose proof (new_grown _ _ _ NT1) as G1. destruct (grown_dense _ _ _ _ G1 Tb) as (Tb1 & Vb1 & _).
  destruct (copy_named h1 b _ Tb1) as (h2 & tb & E2 & NT2 & T2 & V2). pose proof (new_grown _ _ _ NT2) as G2. destruct (grown_dense _ _ _ _ G2 T1) as (T1' & V1' & X1').
  unfold bind at 1. rewrite E1. unfold bind at 1. rewrite E2.
  destruct (three _ _ _ _ _ _ (proj2 T1')) as (x1 & x2 & x3 & Pa & (N1 & D1) & (N2 & D2) & (N3 & D3)). destruct (three _ _ _ _ _ _ (proj2 T2)) as (y1 & y2 & y3 & Pb & (N4 & D4) & (N5 & D5) & (N6 & D6)).
  pose proof (nt_id _ _ _ _ NT1) as I1. pose proof (nt_id _ _ _ _ NT2) as I2. pose proof (nt_ntens _ _ _ _ NT1) as M1.
  assert (LA : legs_of h2 ta = legs_of h1 ta) by (unfold legs_of; now rewrite X1').
  pose proof (wt_alloc _ _ (proj1 (proj1 T1))) as AlA. pose proof (wt_alloc _ _ (proj1 (proj1 T1'))) as AlA'. pose proof (wt_alloc _ _ (proj1 (proj1 T2))) as AlB.
  assert (DJ : forall l, In l (legs_of h2 ta) -> ~ In l (legs_of h2 tb)) by (intros l Hl Hl'; rewrite LA in Hl; apply AlA in Hl; apply (new_legs _ _ _ NT2) in Hl'; lia).
  assert (UA : unlinked h2 ta).
  { intros l Hl. rewrite LA in Hl. rewrite (gr_legs _ _ G2) by auto. destruct (nt_legs _ _ _ _ NT1) as (_ & _ & U). now apply U. }
  assert (UB : unlinked h2 tb) by (intros l Hl; destruct (nt_legs _ _ _ _ NT2) as (_ & _ & U); now apply U).
  assert (ND : NoDup (legs_of h2 ta ++ legs_of h2 tb)) by (apply NoDup_app_intro; [apply T1'|apply T2|exact DJ]).
  assert (ND6 : NoDup [x1; x2; x3; y1; y2; y3]) by (eapply Permutation_NoDup; [|exact ND]; exact (Permutation_app Pa Pb)).
  assert (IA : forall l, In l [x1; x2; x3] -> In l (legs_of h2 ta)) by (intros l Hl; eapply Permutation_in; [symmetry; exact Pa|exact Hl]).
  assert (IB : forall l, In l [y1; y2; y3] -> In l (legs_of h2 tb)) by (intros l Hl; eapply Permutation_in; [symmetry; exact Pb|exact Hl]).
  set (ps := [("1", (x1, y1)); ("2", (x2, y2)); ("3", (x3, y3))]).
  destruct (link_loop ta tb ps h2) as (hL & RL & LM).
  - split; [exact ND6|split].
    + intros l Hl. cbn [ps map fst snd app] in Hl. assert (HI : In l [x1; x2; x3] \/ In l [y1; y2; y3]) by (simpl in *; intuition). destruct HI as [HI|HI]; [apply IA in HI|apply IB in HI]; auto.
    + intros p Hp. cbn [ps map snd] in Hp. destruct Hp as [<-|[<-|[<-|[]]]]; cbn [fst snd]; congruence.
  - assert (N123 : NoDup ["1"; "2"; "3"]) by now apply nodupb_ok.
    destruct (first_three h2 ta _ _ _ _ _ _ N123 Pa N1 N2 N3) as (A1 & A2 & A3). destruct (first_three h2 tb _ _ _ _ _ _ N123 Pb N4 N5 N6) as (B1 & B2 & B3).
    intros s x y Hs. cbn [ps] in Hs. destruct Hs as [E|[E|[E|[]]]]; injection E as <- <- <-; auto.
  - cbn [ps map fst snd] in RL, LM. unfold bind at 1. rewrite RL. pose proof (lm_added _ _ _ LM) as LK.
    destruct (pair_value h2 hL ta tb [(x1, y1); (x2, y2); (x3, y3)] [] [] (proj1 T1') (proj1 T2)) as (h' & t & RC & C & DI & PI & _ & VI); auto; [lia| |].
    { intros p [<-|[<-|[<-|[]]]]; cbn [fst snd]; congruence. }
    exists h', t. split; [exact RC|]. split.
    + assert (PR : restA hL ta tb ++ restB hL ta tb = []) by (apply Permutation_nil; symmetry; rewrite <- (ct_legs _ _ _ _ _ _ C); exact PI).
      pose proof (gr_nleg _ _ G1). pose proof (gr_nleg _ _ G2). pose proof (gr_ntens _ _ G1). pose proof (gr_ntens _ _ G2).
      pose proof (ct_nleg _ _ _ _ _ _ C) as Q1. pose proof (ct_ntens _ _ _ _ _ _ C) as Q2. pose proof (la_nleg _ _ _ LK) as Q3. pose proof (la_ntens _ _ _ LK) as Q4.
      split; [| |lia|lia].
      * intros l Hl. rewrite (ct_out _ _ _ _ _ _ C); [|lia|rewrite PR; intros []]. rewrite (la_out _ _ _ LK).
        -- rewrite (gr_legs _ _ G2) by lia. now apply (gr_legs _ _ G1).
        -- intros X. assert (HI : In l [x1; x2; x3] \/ In l [y1; y2; y3]) by (simpl in *; intuition). destruct HI as [HI|HI].
           ++ apply IA in HI. rewrite LA in HI. apply (new_legs _ _ _ NT1) in HI. lia.
           ++ apply IB in HI. apply (new_legs _ _ _ NT2) in HI. lia.
      * intros u Hu. rewrite (ct_tens _ _ _ _ _ _ C); [|lia|lia|lia]. rewrite (la_tens _ _ _ LK). rewrite (gr_tens _ _ G2) by lia. now apply (gr_tens _ _ G1).
    + assert (HL : has_legs h' t []) by (apply (listed_legs h' t [] [] PI); reflexivity). destruct DI as (Wt & NL & _). rewrite (single_value h' t Wt NL HL). f_equal. unfold at_, at_names. rewrite VI by (intros l []).
      cbn [sumpairs]. rewrite D1, D2, D3. unfold theta. apply sumN_ext. intros i Hi. apply sumN_ext. intros j Hj. apply sumN_ext. intros k Hk.
      match goal with |- rmul (entry h2 ta ?S) _ = _ => set (s := S) end.
      assert (SV : (s x1 = i /\ s x2 = j /\ s x3 = k) /\ (s y1 = i /\ s y2 = j /\ s y3 = k)).
      { assert (NE : NoDup [x1; x2; x3; y1; y2; y3]) by exact ND6. clear -NE. repeat match goal with H : NoDup (_ :: _) |- _ => inversion H; subst; clear H end. simpl in *.
        unfold s, upd. repeat match goal with |- context [Nat.eqb ?p ?q] => destruct (Nat.eqb_spec p q); try (exfalso; intuition congruence) end. auto. }
      destruct SV as ((s1 & s2 & s3) & (s4 & s5 & s6)).
      rewrite (entry_at h2 ta [x1; x2; x3] [("1", i); ("2", j); ("3", k)] s Pa) by (intros l [<-|[<-|[<-|[]]]]; rewrite ?N1, ?N2, ?N3, ?s1, ?s2, ?s3; reflexivity).
      rewrite (entry_at h2 tb [y1; y2; y3] [("1", i); ("2", j); ("3", k)] s Pb) by (intros l [<-|[<-|[<-|[]]]]; rewrite ?N4, ?N5, ?N6, ?s4, ?s5, ?s6; reflexivity).
      unfold entry3. now rewrite V1', V1, V2, Vb1.
Qed.
End Tt.
