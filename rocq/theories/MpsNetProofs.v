(** contractWithMPS (examples/MPS.py 546-580): the collection of MPSes during the run. *)
From Coq Require Import List Arith Bool Lia String ZArith Permutation.
From Verif Require Import Base Sums NdModel NdProofs HeapModel FuncsModel FuncsProofs TensorModel TensorSpec TensorProofs
  ContractModel NetSpec ShareProofs LinkProofs ContractProofs NetProofs GroupSpec GroupProofs NetSameProofs
  SvdModel SvdSpec MpsModel MpsSpec MpsSwapProofs MpsContractModel MpsContractSpec MpsOpenProofs MpsCommonProofs MpsContractProofs MpsDoubleSpec MpsDoubleProofs MpsBondProofs MpsMergeProofs
  MpsProofs  MpsNetSpec.
Import ListNotations.
Local Open Scope list_scope.
Local Open Scope nat_scope.

(** the tensors and the outgoing legs of one object *)
Definition part := (list tid * list lid)%type.
Definition tids (ps : list part) : list tid := flat_map fst ps.
Definition outs (ps : list part) : list lid := flat_map snd ps.
Definition pt (i : nat) (ps : list part) : part := nth i ps ([], []).

Lemma tids_perm ps ps' : Permutation ps ps' -> Permutation (tids ps) (tids ps').
Proof. apply Permutation_flat_map. Qed.
Lemma outs_perm ps ps' : Permutation ps ps' -> Permutation (outs ps) (outs ps').
Proof. apply Permutation_flat_map. Qed.
Lemma tids_app X Y : tids (X ++ Y) = tids X ++ tids Y.
Proof. apply flat_map_app. Qed.
Lemma outs_app X Y : outs (X ++ Y) = outs X ++ outs Y.
Proof. apply flat_map_app. Qed.

(** *** lists *)
Lemma set_nth_nth {X} k (v d : X) l i : k < List.length l -> nth i (set_nth k v l) d = if Nat.eqb i k then v else nth i l d.
Proof.
  revert k i. induction l as [|x l IH]; intros k i Hk; [cbn in Hk; lia|]. destruct k as [|k]; [destruct i; reflexivity|].
  destruct i as [|i]; [reflexivity|]. cbn in Hk. cbn. apply IH. lia.
Qed.
Lemma set_nth_length {X} k (v : X) l : List.length (set_nth k v l) = List.length l.
Proof. revert k. induction l as [|x l IH]; intros [|k]; cbn; auto. Qed.
Lemma take_one {X} (l : list X) i d : i < List.length l -> exists R, Permutation l (nth i l d :: R) /\ (forall a, Permutation (set_nth i a l) (a :: R)) /\
  (forall k, k < List.length l -> k <> i -> In (nth k l d) R) /\ forall p, In p R -> exists k, k <> i /\ k < List.length l /\ p = nth k l d.
Proof.
  revert i. induction l as [|x l IH]; intros [|i] Hi; cbn in Hi; try lia.
  - exists l. split; auto. split; auto. split.
    + intros [|k] Hk N; [lia|]. cbn in *. apply nth_In. lia.
    + intros p Hp. destruct (In_nth l p d Hp) as (k & Hk & E). exists (S k). cbn. split; [lia|]. split; [lia|auto].
  - destruct (IH i) as (R & P & Q & T & V); [lia|]. exists (x :: R). cbn [nth set_nth List.length]. split; [rewrite P at 1; apply perm_swap|]. split; [|split].
    + intros a. rewrite (Q a). apply perm_swap.
    + intros [|k] Hk N; [left; auto|]. right. apply T; lia.
    + intros p [<-|Hp]; [exists 0; split; [lia|]; split; [lia|auto]|]. destruct (V p Hp) as (k & K1 & K2 & K3). exists (S k). split; [lia|]. split; [lia|auto].
Qed.
Lemma take_two {X} (l : list X) i j d : i < List.length l -> j < List.length l -> i <> j ->
  exists R, Permutation l (nth i l d :: nth j l d :: R) /\ (forall a b, Permutation (set_nth j b (set_nth i a l)) (a :: b :: R)) /\
  (forall k, k < List.length l -> k <> i -> k <> j -> In (nth k l d) R) /\ forall p, In p R -> exists k, k <> i /\ k <> j /\ k < List.length l /\ p = nth k l d.
Proof.
  revert i j. induction l as [|x l IH]; intros i j Hi Hj N; [cbn in Hi; lia|]. cbn in Hi, Hj. destruct i as [|i], j as [|j]; [lia| | |].
  - destruct (take_one l j d) as (R & P & Q & T & V); [lia|]. exists R. cbn [nth set_nth List.length]. split; [now rewrite P at 1|]. split; [|split].
    + intros a b. now rewrite (Q b).
    + intros [|k] Hk N1 N2; [lia|]. apply T; lia.
    + intros p Hp. destruct (V p Hp) as (k & K1 & K2 & K3). exists (S k). split; [lia|]. split; [lia|]. split; [lia|auto].
  - destruct (take_one l i d) as (R & P & Q & T & V); [lia|]. exists R. cbn [nth set_nth List.length]. split; [rewrite P at 1; apply perm_swap|]. split; [|split].
    + intros a b. rewrite (Q a). apply perm_swap.
    + intros [|k] Hk N1 N2; [lia|]. apply T; lia.
    + intros p Hp. destruct (V p Hp) as (k & K1 & K2 & K3). exists (S k). split; [lia|]. split; [lia|]. split; [lia|auto].
  - destruct (IH i j) as (R & P & Q & T & V); try lia. exists (x :: R). cbn [nth set_nth List.length]. split; [|split; [|split]].
    + rewrite P at 1. rewrite perm_swap. apply perm_skip, perm_swap.
    + intros a b. rewrite (Q a b). rewrite perm_swap. apply perm_skip, perm_swap.
    + intros [|k] Hk N1 N2; [left; auto|]. right. apply T; lia.
    + intros p [<-|Hp]; [exists 0; split; [lia|]; split; [lia|]; split; [lia|auto]|]. destruct (V p Hp) as (k & K1 & K2 & K3 & K4). exists (S k). split; [lia|]. split; [lia|]. split; [lia|auto].
Qed.
Lemma Forall2_set {X Y} (P : X -> Y -> Prop) l l' i a b : Forall2 P l l' -> P a b -> Forall2 P (set_nth i a l) (set_nth i b l').
Proof. intros F. revert i. induction F as [|x y l l' H F IH]; intros [|i] Q; cbn; constructor; auto. Qed.
Lemma Forall2_nth' {X Y} (P : X -> Y -> Prop) l l' d d' : Forall2 P l l' -> forall i, i < List.length l -> P (nth i l d) (nth i l' d').
Proof. intros F. induction F as [|x y l l' H F IH]; intros [|i] Hi; cbn in *; auto; try lia. apply IH. lia. Qed.

Section Net.
Context {A : Type} {HA : SR A}.
Notation heap := (heap A).

(** *** The state: every object is a chain, bounded by sizes [q] whose total is at most [chi]; the network is closed and not zero *)
Record bunch (h : heap) (ps : list part) (q : lid -> nat) (chi : Z) : Prop := {
  bu_wf : wf_open h (tids ps);
  bu_closed : closed h (tids ps);
  bu_alive : alive h (tids ps);
  bu_q : forall l, 1 <= q l;
  bu_room : Z.le (Z.of_nat (prodn (map q (outs ps)))) chi;
  bu_part : forall p, In p ps -> exists lf rt, (forall e, Permutation (tids ps) (fst p ++ e) -> chain h (fst p) (snd p) e lf rt) /\
    (forall l, In l (snd p) -> dim_of h l <= q l) /\ slim h q (snd p) rt }.

Lemma tids_In ps p t : In p ps -> In t (fst p) -> In t (tids ps).
Proof. intros H1 H2. apply in_flat_map. eauto. Qed.
Lemma tids_split ps p : In p ps -> exists e, Permutation (tids ps) (fst p ++ e) /\ exists R, Permutation ps (p :: R) /\ e = tids R.
Proof.
  intros H. apply in_split in H. destruct H as (X & Y & ->). exists (tids (X ++ Y)). 
  assert (P : Permutation (X ++ p :: Y) (p :: X ++ Y)) by (symmetry; apply Permutation_middle). split; [exact (tids_perm _ _ P)|]. eauto.
Qed.
Lemma chain_env (h : heap) ts os e e' lf rt : chain h ts os e lf rt -> wf_open h (ts ++ e') -> chain h ts os e' lf rt.
Proof. intros C W. exact (chain_frame h h ts os e e' lf rt C (ut_refl h ts) W). Qed.

Lemma bunch_perm (h : heap) ps ps' q chi : Permutation ps ps' -> bunch h ps q chi -> bunch h ps' q chi.
Proof.
  intros P [W C L Q R PT]. pose proof (tids_perm _ _ P) as PT'. constructor; auto.
  - now apply (wf_open_perm h (tids ps)).
  - now apply (closed_perm h (tids ps)); [apply W|..].
  - apply (alive_perm h (tids ps)); auto. apply W.
  - now rewrite <- (prodn_perm' (map q (outs ps)) (map q (outs ps'))) by (apply Permutation_map, outs_perm, P).
  - intros p Hp. destruct (PT p) as (lf & rt & H1 & H2); [now apply (Permutation_in _ (Permutation_sym P))|]. exists lf, rt. split; auto.
    intros e He. apply H1. now rewrite PT'.
Qed.
Lemma part_outs (h : heap) ps q chi p : bunch h ps q chi -> In p ps -> incl (snd p) (all_legs h (fst p)).
Proof.
  intros B Hp l Hl. destruct (bu_part _ _ _ _ B p Hp) as (lf & rt & C & _). destruct (tids_split ps p Hp) as (e & Pe & _). specialize (C e Pe).
  apply (ch_os _ _ _ _ _ _ C) in Hl. destruct Hl as (i & Hi & ->). apply (ch_all _ _ i _ Hi), (ch_in_o _ _ _ _ _ _ C _ Hi).
Qed.
Lemma part_len (h : heap) ps q chi p : bunch h ps q chi -> In p ps -> List.length (snd p) = List.length (fst p).
Proof.
  intros B Hp. destruct (bu_part _ _ _ _ B p Hp) as (lf & rt & C & _). destruct (tids_split ps p Hp) as (e & Pe & _). apply (ch_len _ _ _ _ _ _ (C e Pe)).
Qed.

(** replacing the parts [X] by [X'] *)
Lemma bunch_put (h h' : heap) X X' R q q' chi : bunch h (X ++ R) q chi -> untouched h (tids R) h' -> 
  wf_open h' (tids X' ++ tids R) -> closed h' (tids X' ++ tids R) -> alive h' (tids X' ++ tids R) -> (forall l, 1 <= q' l) ->
  (forall l, In l (all_legs h (tids R)) -> q' l = q l) -> prodn (map q' (outs X')) <= prodn (map q (outs X)) ->
  (forall p, In p X' -> exists lf rt e, Permutation (tids X' ++ tids R) (fst p ++ e) /\ chain h' (fst p) (snd p) e lf rt /\ (forall l, In l (snd p) -> dim_of h' l <= q' l) /\ slim h' q' (snd p) rt) ->
  bunch h' (X' ++ R) q' chi.
Proof.
  intros B U W C AL Q E PR PT. rewrite <- tids_app in *.
  assert (OR : forall p, In p R -> incl (snd p) (all_legs h (tids R))).
  { intros p Hp l Hl. apply (part_outs _ _ _ _ p B) in Hl; [|apply in_app_iff; auto]. revert Hl. apply all_incl. intros t. now apply tids_In. }
  assert (ORR : incl (outs R) (all_legs h (tids R))).
  { intros l Hl. apply in_flat_map in Hl. destruct Hl as (p & Hp & Hl). exact (OR p Hp l Hl). }
  constructor; auto.
  - rewrite outs_app, prodn_map_app. pose proof (bu_room _ _ _ _ B) as RM. rewrite outs_app, prodn_map_app in RM.
    assert (EQ : map q' (outs R) = map q (outs R)) by (apply map_ext_in; auto). rewrite EQ.
    etransitivity; [|exact RM]. apply inj_le. now apply Nat.mul_le_mono_r.
  - intros p Hp. apply in_app_iff in Hp. destruct Hp as [Hp|Hp].
    + destruct (PT p Hp) as (lf & rt & e & Pe & CH & D & SL). exists lf, rt. split; auto. intros e' Pe'. apply (chain_env _ _ _ e); auto. now apply (wf_open_perm _ (tids (X' ++ R))).
    + destruct (bu_part _ _ _ _ B p) as (lf & rt & CH & D & SL); [apply in_app_iff; auto|]. exists lf, rt.
      destruct (tids_split (X ++ R) p) as (e0 & Pe0 & _); [apply in_app_iff; auto|]. specialize (CH e0 Pe0).
      assert (Up : untouched h (fst p) h') by (apply (ut_incl h h' (tids R)); auto; intros t; now apply tids_In).
      split; [|split].
      * intros e Pe. apply (chain_frame h h' _ _ e0 e lf rt CH Up). now apply (wf_open_perm _ (tids (X' ++ R))).
      * intros l Hl. rewrite E by (now apply (OR p)). unfold dim_of. rewrite (ut_legs _ _ _ U) by (now apply (OR p)). now apply D.
      * assert (SL' : slim h' q (snd p) rt) by exact (slim_frame h h' _ _ _ _ _ q CH Up SL). intros k Hk. specialize (SL' k Hk).
        assert (EQ : forall L, incl L (snd p) -> map q' L = map q L) by (intros L HL; apply map_ext_in; intros l Hl; apply E, (OR p Hp), HL, Hl).
        rewrite !EQ; auto; intros l Hl; [rewrite <- (firstn_skipn (S k) (snd p)); apply in_app_iff; auto..].
Qed.

(** two parts of the collection *)
Lemma bunch_pair (h : heap) pA pB R q chi : bunch h (pA :: pB :: R) q chi -> exact_pair h (fst pA) (fst pB) (tids R) (snd pA) (snd pB) q chi.
Proof.
  intros B. assert (EN : tids (pA :: pB :: R) = fst pA ++ fst pB ++ tids R) by reflexivity.
  destruct (bu_part _ _ _ _ B pA) as (lfA & rtA & CA & DA & SA); [simpl; auto|]. destruct (bu_part _ _ _ _ B pB) as (lfB & rtB & CB & DB & SB); [simpl; auto|].
  specialize (CA (fst pB ++ tids R) (Permutation_refl _)). specialize (CB (fst pA ++ tids R) (st_perm (fst pA) (fst pB) (tids R))).
  split; [rewrite <- EN; apply B|]. split; [rewrite <- EN; apply B|]. split; [apply B|]. exists lfA, rtA, lfB, rtB. split; auto. split; auto.
  pose proof (bu_room _ _ _ _ B) as RM. change (outs (pA :: pB :: R)) with (snd pA ++ snd pB ++ outs R) in RM. pose proof (bu_q _ _ _ _ B) as Q.
  destruct (part_le q (snd pA) (snd pB ++ outs R) Q) as [L1 L2]. destruct (part_le q (snd pB) (outs R) Q) as [L3 L4].
  split; (split; [auto|split; [auto|]]); lia.
Qed.
End Net.
