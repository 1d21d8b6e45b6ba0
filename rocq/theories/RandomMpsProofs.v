(** makeRandomMPS makes a chain of normalized tensors (C69). *)
From Coq Require Import List Arith Bool Lia String ZArith Permutation.
From Verif Require Import Base Sums NdModel NdProofs HeapModel FuncsModel FuncsProofs TensorModel TensorSpec CtorProofs TensorProofs LabelProofs
  ContractModel NetSpec ShareProofs LinkProofs SumpairsProofs NetProofs CopyListProofs FreshNetProofs GroupSpec NetSameProofs
  SvdModel SchmidtProofs TrgModel TrgSpec MpsModel MpsSpec MpsProofs MpsNewProofs MpsCopyProofs RandomMpsModel RandomMpsSpec.
Import ListNotations.
Local Open Scope nat_scope.
Local Open Scope string_scope.
Local Open Scope list_scope.

Section Rm.
Context {A B : Type} {HA : SR A}.
Notation heap := (heap A).
Variable num : numerics A B.

(** ** the numbers *)
Definition mk1 (m : list (string * nat)) : @M A tid := mkDense (Some (map snd m)) (Some (map NStr (map fst m))) None None None false.
Lemma mk1_draw (h h1 : heap) m c : mk1 m h = (h1, Ok c) ->
  rng h1 = rng h /\ rpos h1 = rpos h + prodn (map snd m) /\ t_arr (tens h1 c) = Some (mkArr (map snd m) (map (rng h) (seq (rpos h) (prodn (map snd m))))).
Proof.
  unfold mk1, mkDense. cbv [bind check ret checkShapeDataCompatible checkShapeLabelsCompatible generateData allocs draw reads]. rewrite !map_length, ?Nat.eqb_refl.
  match goal with |- context [makeLegs ?t ?l ?s ?x] => destruct (makeLegs_ok t l s x) as (h3 & -> & ML & _) end; [now rewrite !map_length|].
  unfold alloc_tens. intros E. injection E as <- <-. destruct ML. cbn in *. rewrite upd_same. cbn. repeat split; congruence.
Qed.
Fixpoint total (ms : list (list (string * nat))) : nat := match ms with [] => 0 | m :: ms' => prodn (map snd m) + total ms' end.
(** ** the tensors *)
Record is_site (h h1 : heap) (m : list (string * nat)) (c : tid) : Prop := {
  is_id : ntens h <= c < ntens h1;
  is_wf : wf_tensor h1 c; is_own : owned h1 c;
  is_names : names_of h1 c = map NStr (map fst m); is_dims : dims_of h1 c = map snd m;
  is_dense : t_diag (tens h1 c) = false /\ t_like (tens h1 c) = false;
  is_new : forall l, In l (legs_of h1 c) -> nleg h <= l /\ l_bond (legs h1 l) = None }.
Record sites (h h1 : heap) (ms : list (list (string * nat))) (cs : list tid) : Prop := {
  s_legs : forall l, l < nleg h -> legs h1 l = legs h l;
  s_bonds : bonds h1 = bonds h; s_nbond : nbond h1 = nbond h;
  s_tens : forall t, t < ntens h -> tens h1 t = tens h t;
  s_nleg : nleg h <= nleg h1; s_ntens : ntens h <= ntens h1;
  s_sites : Forall2 (is_site h h1) ms cs;
  s_ids : NoDup cs; s_nodup : NoDup (all_legs h1 cs) }.

Lemma sites_ok : forall ms (h : heap), exists h1 cs,
  mapM (fun m => mkDense (Some (map snd m)) (Some (map NStr (map fst m))) None None None false) ms h = (h1, Ok cs) /\ sites h h1 ms cs.
Proof.
  induction ms as [|m ms IH]; intros h.
  - exists h, []. split; [reflexivity|]. constructor; auto; constructor.
  - pose proof (mkDense_spec h (Some (map snd m)) (Some (map NStr (map fst m))) None None None false ltac:(constructor; exact I)) as Sp.
    destruct (mkDense (Some (map snd m)) (Some (map NStr (map fst m))) None None None false h) as [h1 [c|e]] eqn:E1.
    2:{ exfalso. destruct Sp as (_ & Hn & _). apply Hn. unfold dense_args_ok. split; [now rewrite !map_length|exact I]. }
    destruct Sp as (_ & [n1 n2 n3 n4 n5 n6 n7 (n8 & n9 & n10)] & W & O & E2 & E3 & _ & _ & E4 & E5 & _).
    specialize (E4 _ eq_refl). specialize (E5 _ eq_refl).
    assert (Ja : is_site h h1 m c).
    { constructor; auto; [lia|]. intros l Hl. split; auto. rewrite n9 in Hl. apply in_seq in Hl. lia. }
    destruct (IH h1) as (h2 & cs & E & [b1 b2 b3 b4 b5 b6 b7 b8 b9]). exists h2, (c :: cs). split; [cbn [mapM]; unfold bind at 1; rewrite E1; unfold bind at 1; now rewrite E|].
    destruct Ja as [i1 i2 i3 i4 i5 i6 i7].
    assert (TC : tens h2 c = tens h1 c) by (apply b4; lia).
    assert (LC : legs_of h2 c = legs_of h1 c) by (unfold legs_of; now rewrite TC).
    assert (LL : forall l, In l (legs_of h1 c) -> legs h2 l = legs h1 l) by (intros l Hl; apply b1; now apply (wt_alloc _ _ i2)).
    constructor; try congruence; try lia.
    + intros l Hl. rewrite b1 by lia. auto.
    + intros t Ht. rewrite b4 by lia. auto.
    + constructor.
      * constructor; [lia| | | | | |].
        -- eapply wf_same; eauto; try lia. intros l Hl. unfold dim_of. now rewrite LL.
        -- intros l Hl. rewrite LC in Hl. rewrite LL by auto. auto.
        -- rewrite <- i4. unfold names_of. rewrite LC. apply map_ext_in. intros l Hl. now rewrite LL.
        -- rewrite <- i5. unfold dims_of. rewrite LC. apply map_ext_in. intros l Hl. unfold dim_of. now rewrite LL.
        -- rewrite TC. auto.
        -- intros l Hl. rewrite LC in Hl. rewrite LL by auto. auto.
      * clear -b7 n6 n7. induction b7 as [|m' c' ms cs J _ IH]; constructor; auto. destruct J as [j1 j2 j3 j4 j5 j6 j7]. constructor; auto; [lia|]. intros l Hl. destruct (j7 l Hl). split; auto. lia.
    + constructor; auto. intros Hi. assert (ntens h1 <= c); [|lia].
      clear -b7 Hi. induction b7 as [|t' c' ts cs J _ IH]; [destruct Hi|]. destruct Hi as [->|Hi]; [apply J|auto].
    + unfold all_legs. simpl. rewrite LC. apply NoDup_app_intro; [apply i2|exact b9|].
      intros l H1 H2. apply all_legs_In in H2. destruct H2 as (c' & Hc' & Hl). apply (wt_alloc _ _ i2) in H1.
      assert (nleg h1 <= l); [|lia]. clear -b7 Hc' Hl. induction b7 as [|t' c0 ts cs J _ IH]; [destruct Hc'|]. destruct Hc' as [->|Hc']; auto.
      now apply (is_new _ _ _ _ J).
Qed.

Lemma draws_ok : forall ms (h h1 : heap) cs, mapM mk1 ms h = (h1, Ok cs) -> forall i, i < List.length ms ->
  t_arr (tens h1 (nth i cs 0)) = Some (mkArr (map snd (nth i ms [])) (map (rng h) (seq (rpos h + total (firstn i ms)) (prodn (map snd (nth i ms [])))))).
Proof.
  induction ms as [|m ms IH]; intros h h1 cs E i Hi; [cbn in Hi; lia|].
  cbn [mapM] in E. unfold bind at 1 in E. destruct (mk1 m h) as [h2 [c|e]] eqn:E1; [|discriminate]. unfold bind at 1 in E.
  destruct (sites_ok ms h2) as (h3 & cs' & E2 & ST). change (mapM mk1 ms h2 = (h3, Ok cs')) in E2. rewrite E2 in E. injection E as <- <-.
  destruct (mk1_draw _ _ _ _ E1) as (D1 & D2 & D3). destruct i as [|i]; cbn [nth firstn total].
  - rewrite (s_tens _ _ _ _ ST); [now rewrite Nat.add_0_r|]. clear -E1.
    pose proof (mkDense_spec h (Some (map snd m)) (Some (map NStr (map fst m))) None None None false ltac:(constructor; exact I)) as Sp. unfold mk1 in E1. rewrite E1 in Sp. apply (wt_id _ _ (proj1 (proj2 (proj2 Sp)))).
  - rewrite (IH _ _ _ E2 i) by (cbn in Hi; lia). rewrite D1, D2. do 4 f_equal. lia.
Qed.

(** ** the norms *)
Record scaled (h h' : heap) (ts : list tid) : Prop := {
  sc_legs : legs h' = legs h; sc_bonds : bonds h' = bonds h; sc_nleg : nleg h' = nleg h; sc_nbond : nbond h' = nbond h; sc_ntens : ntens h' = ntens h;
  sc_out : forall t, ~ In t ts -> tens h' t = tens h t;
  sc_in : forall t, In t ts -> exists a, t_arr (tens h t) = Some a /\
    tens h' t = mkTensor (t_legs (tens h t)) (Some (mkArr (ashape a) (map (fun x => nu_div num x (nu_norm num a)) (adata a)))) (t_diag (tens h t)) (t_like (tens h t)) (t_len (tens h t)) (t_name (tens h t)) }.
Lemma scaled_ok : forall ts (h : heap), NoDup ts -> (forall t, In t ts -> t_like (tens h t) = false /\ t_arr (tens h t) <> None) ->
  exists h', iterM (fun t => bind (divideByNorm num t) (fun _ => ret tt)) ts h = (h', Ok tt) /\ scaled h h' ts.
Proof.
  induction ts as [|t ts IH]; intros h N H.
  - exists h. split; [reflexivity|]. constructor; auto. intros t [].
  - inversion N as [|? ? N1 N2]; subst. destruct (H t (or_introl eq_refl)) as (NL & NA). destruct (t_arr (tens h t)) as [a|] eqn:Ea; [|congruence].
    set (r := mkTensor (t_legs (tens h t)) (Some (mkArr (ashape a) (map (fun x => nu_div num x (nu_norm num a)) (adata a)))) (t_diag (tens h t)) (t_like (tens h t)) (t_len (tens h t)) (t_name (tens h t))).
    assert (E : divideByNorm num t h = (set_tens h t r, Ok (nu_norm num a))).
    { unfold divideByNorm. unfold bind at 1, reads at 1. rewrite NL. cbn [negb]. unfold assert, bind at 1, ret at 1. rewrite Ea. unfold bind at 1, setArr, modify. reflexivity. }
    destruct (IH (set_tens h t r) N2) as (h' & E' & S).
    { intros u Hu. cbn. rewrite upd_other by (intros ->; auto). apply H. simpl; auto. }
    exists h'. split; [cbn [iterM]; unfold bind at 1, bind at 1; rewrite E; unfold ret at 1; exact E'|].
    destruct S as [s1 s2 s3 s4 s5 s6 s7]. constructor; auto.
    + intros u Hu. rewrite s6 by (simpl in Hu; tauto). cbn. rewrite upd_other; auto. intros ->. apply Hu. simpl; auto.
    + intros u [<-|Hu].
      * exists a. split; auto. rewrite s6 by auto. cbn. now rewrite upd_same.
      * destruct (s7 u Hu) as (a' & Ea' & Et). assert (u <> t) by (intros ->; auto). cbn in Ea', Et. rewrite upd_other in Ea', Et by auto. eauto.
Qed.

(** ** the links *)
Lemma link1_ok (h : heap) a b ta tb x y : first_named h ta (NStr a) x -> first_named h tb (NStr b) y -> dim_of h x = dim_of h y -> link1 a b ta tb h = (linked_heap h x y, Ok tt).
Proof.
  intros Fx Fy Ed. unfold link1, bind at 1.
  rewrite (makeLink_read h [RStr a] [RStr b] (Some ta) (Some tb) [Some x] [Some y]); [|repeat constructor; auto|repeat constructor; auto|reflexivity].
  cbn [combine mapM]. unfold bind at 1. rewrite linkPair_ok by auto. reflexivity.
Qed.
(** a list of calls of makeLink: names, tensors and the legs they denote *)
Definition call := (string * string * (tid * tid) * (lid * lid))%type.
Definition runCall (c : call) : @M A unit := link1 (fst (fst (fst c))) (snd (fst (fst c))) (fst (snd (fst c))) (snd (snd (fst c))).
Lemma calls_ok : forall (cs : list call) (h : heap),
  (forall a b ta tb x y, In (a, b, (ta, tb), (x, y)) cs -> first_named h ta (NStr a) x /\ first_named h tb (NStr b) y) -> linkable h (map snd cs) ->
  exists h', iterM runCall cs h = (h', Ok tt) /\ links_made h h' (map snd cs).
Proof.
  induction cs as [|[[[a b] [ta tb]] [x y]] cs IH]; intros h F LK.
  - exists h. split; [reflexivity|]. split; [apply links_added_refl|intros l []].
  - cbn [map snd] in LK. destruct (linkable_cons _ _ _ _ LK) as (Nxy & Nx & Ny & Ed & LK'). destruct (F a b ta tb x y (or_introl eq_refl)) as (Fx & Fy).
    pose proof (linked_heap_added h x y Nxy) as L1. destruct (IH (linked_heap h x y)) as (h' & E & LM); [|exact LK'|].
    + intros a' b' ta' tb' x' y' Hc. destruct (F a' b' ta' tb' x' y' (or_intror Hc)) as (F1 & F2).
      split; (eapply first_same; [intros z; apply (la_fields _ _ _ L1)|apply (la_tens _ _ _ L1)|]); [exact F1|exact F2].
    + exists h'. split; [|cbn [map snd]; eapply links_made_cons; eauto]. cbn [iterM]. unfold bind at 1, runCall at 1. cbn [fst snd]. rewrite (link1_ok h a b ta tb x y Fx Fy Ed). exact E.
Qed.

Lemma iterM_map {X Y} (f : Y -> @M A unit) (g : X -> Y) : forall l (h : heap), iterM f (map g l) h = iterM (fun x => f (g x)) l h.
Proof. induction l as [|x l IH]; intros h; [reflexivity|]. cbn [map iterM]. unfold bind. destruct (f (g x) h) as [h' [u|e]]; auto. Qed.
Lemma iterM_ext {X} (f g : X -> @M A unit) : forall l (h : heap), (forall x, In x l -> f x = g x) -> iterM f l h = iterM g l h.
Proof.
  induction l as [|x l IH]; intros h H; [reflexivity|]. cbn [iterM]. rewrite (H x) by (simpl; auto). unfold bind.
  destruct (g x h) as [h' [u|e]]; auto. apply IH. intros y Hy. apply H. simpl; auto.
Qed.
Lemma last_is {X} (l : list X) d : last l d = nth (List.length l - 1) l d.
Proof. induction l as [|x [|y l] IH]; [reflexivity|reflexivity|]. change (last (x :: y :: l) d) with (last (y :: l) d). rewrite IH. cbn [List.length]. replace (S (S (List.length l)) - 1) with (S (List.length l)) by lia. replace (S (List.length l) - 1) with (List.length l) by lia. reflexivity. Qed.

(** ** the chain *)
Section Ch.
Variables (h : heap) (n : nat) (ts : list tid) (P L R : nat -> lid).
Let t (i : nat) : tid := nth i ts 0.
Definition rname (i : nat) : string := if Nat.eqb i 0 then "v" else "vr".
Definition lname (i : nat) : string := if Nat.eqb (S i) n then "v" else "vl".
Hypothesis Hn : 2 <= n.
Hypothesis Len : List.length ts = n.
Hypothesis Wf : forall u, In u ts -> wf_tensor h u /\ owned h u.
Hypothesis Nt : NoDup ts.
Hypothesis Nl : NoDup (all_legs h ts).
Hypothesis Free : forall l, In l (all_legs h ts) -> l_bond (legs h l) = None.
Hypothesis Kind : forall u, In u ts -> t_diag (tens h u) = false /\ t_like (tens h u) = false.
Hypothesis Legs : forall i, i < n -> legs_of h (t i) = P i :: opt (Nat.ltb 0 i) (L i) ++ opt (Nat.ltb (S i) n) (R i).
Hypothesis NP : forall i, i < n -> l_name (legs h (P i)) = NStr "p".
Hypothesis NL : forall i, S i < n -> l_name (legs h (L (S i))) = NStr (lname (S i)).
Hypothesis NR : forall i, S i < n -> l_name (legs h (R i)) = NStr (rname i).
Hypothesis Dm : forall i, S i < n -> dim_of h (R i) = dim_of h (L (S i)).

Lemma t_in i : i < n -> In (t i) ts. Proof. intros H. apply nth_In. lia. Qed.
Lemma t_inj i j : i < n -> j < n -> t i = t j -> i = j.
Proof. intros H1 H2 E. apply (proj1 (NoDup_nth ts 0) Nt); auto; lia. Qed.
Lemma P_in i : i < n -> In (P i) (legs_of h (t i)). Proof. intros H. rewrite Legs by auto. simpl; auto. Qed.
Lemma R_in i : S i < n -> In (R i) (legs_of h (t i)).
Proof. intros H. rewrite Legs by lia. right. apply in_app_iff. right. destruct (Nat.ltb_spec (S i) n); [simpl; auto|lia]. Qed.
Lemma L_in i : S i < n -> In (L (S i)) (legs_of h (t (S i))).
Proof. intros H. rewrite Legs by lia. right. apply in_app_iff. left. simpl; auto. Qed.
Lemma all_in i l : i < n -> In l (legs_of h (t i)) -> In l (all_legs h ts).
Proof. intros H Hl. apply all_legs_In. exists (t i). split; auto. now apply t_in. Qed.
Lemma one_site i j l : i < n -> j < n -> In l (legs_of h (t i)) -> In l (legs_of h (t j)) -> i = j.
Proof. intros H1 H2 K1 K2. apply t_inj; auto. eapply one_owner; eauto using t_in. Qed.
Lemma leg_cases i l : i < n -> In l (legs_of h (t i)) -> l = P i \/ (exists j, i = S j /\ l = L i) \/ (S i < n /\ l = R i).
Proof.
  intros H Hl. rewrite Legs in Hl by auto. destruct Hl as [<-|Hl]; auto. apply in_app_iff in Hl as [Hl|Hl].
  - destruct i as [|i]; [destruct Hl|]. destruct Hl as [<-|[]]. eauto.
  - destruct (Nat.ltb_spec (S i) n); [|destruct Hl]. destruct Hl as [<-|[]]; auto.
Qed.
Lemma site_nodup i : i < n -> NoDup (legs_of h (t i)). Proof. intros H. apply (Wf _ (t_in i H)). Qed.
Lemma PR i : S i < n -> P i <> R i.
Proof. intros H E. pose proof (NP i ltac:(lia)) as X. rewrite E, NR in X by auto. unfold rname in X. destruct (Nat.eqb i 0); discriminate. Qed.
Lemma PL i : S i < n -> P (S i) <> L (S i).
Proof. intros H E. pose proof (NP (S i) ltac:(lia)) as X. rewrite E, NL in X by auto. unfold lname in X. destruct (Nat.eqb (S (S i)) n); discriminate. Qed.
Lemma LR_names i : S (S i) < n -> NStr (lname (S i)) <> NStr (rname (S i)).
Proof. intros H. unfold lname, rname. destruct (Nat.eqb_spec (S (S i)) n); [lia|]. discriminate. Qed.
Lemma LR i : S (S i) < n -> L (S i) <> R (S i).
Proof. intros H E. apply (LR_names i H). rewrite <- NL, <- NR, E by lia. reflexivity. Qed.
Lemma RL i j : S i < n -> S j < n -> R i <> L (S j).
Proof.
  intros H1 H2 E. assert (i = S j) as -> by (apply (one_site i (S j) (R i)); try lia; [now apply R_in|rewrite E; now apply L_in]). apply (LR j H1). now symmetry.
Qed.
Lemma R_inj i j : S i < n -> S j < n -> R i = R j -> i = j.
Proof. intros H1 H2 E. apply (one_site i j (R i)); try lia; [now apply R_in|rewrite E; now apply R_in]. Qed.
Lemma L_inj i j : S i < n -> S j < n -> L (S i) = L (S j) -> i = j.
Proof. intros H1 H2 E. assert (S i = S j); [|lia]. apply (one_site (S i) (S j) (L (S i))); try lia; [now apply L_in|rewrite E; now apply L_in]. Qed.

Lemma first_R i : S i < n -> first_named h (t i) (NStr (rname i)) (R i).
Proof.
  intros H. apply only_first; [apply site_nodup; lia|now apply R_in|now apply NR|].
  intros l Hl E. destruct (leg_cases i l ltac:(lia) Hl) as [->|[(j & -> & ->)|(_ & ->)]]; auto.
  - rewrite NP in E by lia. unfold rname in E. destruct (Nat.eqb i 0); discriminate.
  - rewrite NL in E by lia. now apply LR_names in E.
Qed.
Lemma first_L i : S i < n -> first_named h (t (S i)) (NStr (lname (S i))) (L (S i)).
Proof.
  intros H. apply only_first; [apply site_nodup; lia|now apply L_in|now apply NL|].
  intros l Hl E. destruct (leg_cases (S i) l ltac:(lia) Hl) as [->|[(j & _ & ->)|(H' & ->)]]; auto.
  - rewrite NP in E by lia. unfold lname in E. destruct (Nat.eqb (S (S i)) n); discriminate.
  - rewrite NR in E by lia. symmetry in E. now apply LR_names in E.
Qed.

Definition cl (i : nat) : call := (rname i, lname (S i), (t i, t (S i)), (R i, L (S i))).
Definition clr (i : nat) : call := (lname (S i), rname i, (t (S i), t i), (L (S i), R i)).
Definition calls : list call := if Nat.eqb n 2 then [cl 0] else cl 0 :: clr (n - 2) :: map cl (seq 1 (n - 3)).
Lemma randomLinks_calls (h0 : heap) : randomLinks n ts h0 = iterM runCall calls h0.
Proof.
  unfold randomLinks, calls. rewrite last_is, Len. destruct (Nat.eqb_spec n 2) as [E|E].
  - cbn [iterM]. unfold bind at 1, runCall, cl. cbn [fst snd]. unfold rname, lname, t. rewrite E. cbn [Nat.eqb Nat.sub]. 
    destruct (link1 "v" "v" (nth 0 ts 0) (nth 1 ts 0) h0) as [h' [[]|e]]; reflexivity.
  - cbn [iterM]. unfold runCall at 1 2, cl at 1 2 3 4, clr. cbn [fst snd]. unfold rname at 1 2, lname at 1 2. fold (t (n - 1)) (t (n - 2)) (t 0) (t 1).
    destruct (Nat.eqb_spec 2 n); [lia|]. replace (S (n - 2)) with (n - 1) by lia. destruct (Nat.eqb_spec (S (n - 1)) n); [|lia]. destruct (Nat.eqb_spec (n - 2) 0); [lia|]. cbn [Nat.eqb].
    unfold bind at 1 3. destruct (link1 "v" "vl" (t 0) (t 1) h0) as [h1 [u|er]]; auto. unfold bind at 1 2. destruct (link1 "v" "vr" (t (n - 1)) (t (n - 2)) h1) as [h2 [u'|er]]; auto.
    rewrite iterM_map. apply iterM_ext. intros i Hi. apply in_seq in Hi. unfold runCall, cl, rname, lname. cbn [fst snd].
    destruct (Nat.eqb_spec i 0); [lia|]. destruct (Nat.eqb_spec (S (S i)) n); [lia|]. rewrite Nat.add_1_r. reflexivity.
Qed.
Lemma calls_in c : In c calls -> exists i, S i < n /\ (c = cl i \/ c = clr i).
Proof.
  unfold calls. destruct (Nat.eqb_spec n 2) as [E|E].
  - intros [<-|[]]. exists 0. split; [lia|auto].
  - intros [<-|[<-|H]]; [exists 0; split; [lia|auto]|exists (n - 2); split; [lia|auto]|]. apply in_map_iff in H as (i & <- & Hi). apply in_seq in Hi. exists i. split; [lia|auto].
Qed.
Lemma calls_all i : S i < n -> In (cl i) calls \/ In (clr i) calls.
Proof.
  intros H. unfold calls. destruct (Nat.eqb_spec n 2) as [E|E]; [replace i with 0 by lia; simpl; auto|].
  destruct (Nat.eq_dec i 0) as [->|N0]; [left; simpl; auto|]. destruct (Nat.eq_dec i (n - 2)) as [->|N1]; [right; simpl; auto|].
  left. right. right. apply in_map, in_seq. lia.
Qed.
Let ps := map snd calls.
Lemma ps_in x y : In (x, y) ps -> exists i, S i < n /\ ((x = R i /\ y = L (S i)) \/ (x = L (S i) /\ y = R i)).
Proof.
  intros H. apply in_map_iff in H as (c & E & Hc). destruct (calls_in c Hc) as (i & Hi & [-> | ->]); cbn in E; injection E as <- <-; exists i; auto.
Qed.
Lemma ps_all i : S i < n -> In (R i, L (S i)) ps \/ In (L (S i), R i) ps.
Proof. intros H. destruct (calls_all i H) as [K|K]; apply (in_map snd) in K; auto. Qed.
Lemma ps_nodup : NoDup (plegs ps).
Proof.
  assert (NN : NoDup (map R (seq 0 (n - 1)) ++ map (fun i => L (S i)) (seq 0 (n - 1)))).
  { apply NoDup_app_intro.
    - apply NoDup_map_on; [apply seq_NoDup|]. intros i j Hi Hj. apply in_seq in Hi, Hj. apply R_inj; lia.
    - apply NoDup_map_on; [apply seq_NoDup|]. intros i j Hi Hj. apply in_seq in Hi, Hj. apply L_inj; lia.
    - intros l H1 H2. apply in_map_iff in H1 as (i & <- & Hi). apply in_map_iff in H2 as (j & E & Hj). apply in_seq in Hi, Hj. symmetry in E. revert E. apply RL; lia. }
  eapply Permutation_NoDup; [|exact NN]. unfold plegs, ps, calls. destruct (Nat.eqb_spec n 2) as [E|E]; [rewrite E; cbn; reflexivity|].
  replace (n - 1) with (1 + (n - 3) + 1) by lia. rewrite !seq_app. cbn [seq app map fst snd cl clr Nat.add]. replace (S (n - 3)) with (n - 2) by lia. rewrite !map_map. cbn [cl fst snd].
  rewrite !map_app. cbn [map app]. constructor. 
  set (RR := map R (seq 1 (n - 3))). set (LL := map (fun i => L (S i)) (seq 1 (n - 3))). change (map (fun x => R x) (seq 1 (n - 3))) with RR.
  replace (S (n - 2)) with (n - 1) by lia.
  rewrite <- app_assoc. cbn [app]. 
  apply Permutation_trans with (RR ++ L (n - 1) :: L 1 :: R (n - 2) :: LL).
  - apply Permutation_app_head. apply Permutation_trans with (L 1 :: R (n - 2) :: LL ++ [L (n - 1)]); [constructor|].
    apply Permutation_trans with (L (n - 1) :: (L 1 :: R (n - 2) :: LL)); [|reflexivity]. symmetry. apply (Permutation_cons_append (L 1 :: R (n - 2) :: LL)).
  - symmetry. apply Permutation_middle.
Qed.
Lemma ps_legs l : In l (plegs ps) -> In l (all_legs h ts).
Proof.
  intros H. apply plegs_In in H as [(y & H)|(y & H)]; apply ps_in in H as (i & Hi & [(E1 & E2)|(E1 & E2)]); rewrite ?E1, ?E2; (eapply all_in; [|apply R_in; eauto]; lia) || (eapply all_in; [|apply L_in; eauto]; lia).
Qed.
Lemma ps_dim p : In p ps -> dim_of h (fst p) = dim_of h (snd p).
Proof. destruct p as [x y]. intros H. apply ps_in in H as (i & Hi & [(-> & ->)|(-> & ->)]); cbn [fst snd]; rewrite Dm; auto. Qed.
Lemma ps_linkable : linkable h ps.
Proof.
  split; [exact ps_nodup|]. split; [|exact ps_dim]. intros l Hl. apply ps_legs in Hl. split; [|now apply Free].
  apply all_legs_In in Hl as (u & Hu & Hl). apply (wt_alloc _ _ (proj1 (Wf u Hu))), Hl.
Qed.
Lemma ps_across l l' : In (l, l') ps -> exists u u', In u ts /\ In u' ts /\ u <> u' /\ In l (legs_of h u) /\ In l' (legs_of h u').
Proof.
  intros H. apply ps_in in H as (i & Hi & [(-> & ->)|(-> & ->)]); [exists (t i), (t (S i))|exists (t (S i)), (t i)];
    (split; [apply t_in; lia|split; [apply t_in; lia|split; [intros E; apply t_inj in E; lia|split; auto using R_in, L_in]]]).
Qed.
Lemma run_links : exists h3, randomLinks n ts h = (h3, Ok tt) /\ links_made h h3 ps.
Proof.
  rewrite randomLinks_calls. apply calls_ok; [|exact ps_linkable].
  intros a b ta tb x y H. apply calls_in in H as (i & Hi & [E|E]); unfold cl, clr in E; injection E as -> -> -> -> -> ->; auto using first_R, first_L.
Qed.
Variable h3 : heap.
Hypothesis LM : links_made h h3 ps.
Let LA := lm_added _ _ _ LM.
Lemma c_legs u : legs_of h3 u = legs_of h u. Proof. apply (F_legs h h3 ps LA). Qed.
Lemma c_all us : all_legs h3 us = all_legs h us. Proof. apply (F_all h h3 ps LA). Qed.
Lemma c_linked l l' : In l (all_legs h ts) -> linked h3 l l' <-> exists i, S i < n /\ ((l = R i /\ l' = L (S i)) \/ (l = L (S i) /\ l' = R i)).
Proof.
  intros Hl. rewrite (F_linked h h3 ts ps Free LA l l' Hl). split.
  - intros [H|H]; apply ps_in in H as (i & Hi & K); exists i; split; auto; tauto.
  - intros (i & Hi & [(-> & ->)|(-> & ->)]); destruct (ps_all i Hi); auto.
Qed.
Lemma c_net : wf_net h3 ts.
Proof. apply (F_wf h h3 ts ps Wf Nt Nl Free LA ps_dim). Qed.
Lemma c_open : wf_open h3 (ts ++ []).
Proof.
  rewrite app_nil_r. constructor; [exact c_net| |].
  - intros l b Hl Eb. rewrite c_all in Hl. destruct (in_dec Nat.eq_dec l (plegs ps)) as [I|I].
    + destruct (lm_alloc _ _ _ LM l I) as (b' & Eb' & Hb). assert (b' = b) as -> by congruence. lia.
    + rewrite (la_out _ _ _ LA) in Eb by exact I. rewrite Free in Eb by auto. discriminate.
  - intros l l' Hl K. rewrite c_all in Hl. apply c_linked in K; auto. rewrite (la_nleg _ _ _ LA).
    assert (In l' (plegs ps)) as K' by (apply plegs_In; destruct K as (i & Hi & [(-> & ->)|(-> & ->)]); destruct (ps_all i Hi); eauto).
    apply ps_legs in K'. apply all_legs_In in K' as (u & Hu & K'). apply (wt_alloc _ _ (proj1 (Wf u Hu))), K'.
Qed.
Lemma c_link i : S i < n -> linked h3 (R i) (L (S i)).
Proof. intros H. apply c_linked; [eapply all_in; [|apply R_in]; lia|]. exists i. auto. Qed.
(** who is linked to whom *)
Lemma c_sites i j l l' : i < n -> j < n -> In l (legs_of h (t i)) -> In l' (legs_of h (t j)) -> linked h3 l l' ->
  (j = S i /\ l = R i /\ l' = L j) \/ (i = S j /\ l = L i /\ l' = R j).
Proof.
  intros Hi Hj Hl Hl' K. apply c_linked in K; [|exact (all_in i l Hi Hl)]. destruct K as (k & Hk & [(-> & ->)|(-> & ->)]).
  - left. assert (i = k) as -> by (eapply one_site; [exact Hi| |exact Hl|apply R_in; auto]; lia).
    assert (j = S k) as -> by (eapply one_site; [exact Hj| |exact Hl'|apply L_in; auto]; lia). auto.
  - right. assert (j = k) as -> by (eapply one_site; [exact Hj| |exact Hl'|apply R_in; auto]; lia).
    assert (i = S k) as -> by (eapply one_site; [exact Hi| |exact Hl|apply L_in; auto]; lia). auto.
Qed.
Lemma one_elem {X} (l : list X) x : NoDup l -> (forall y, In y l <-> y = x) -> List.length l = 1.
Proof.
  intros N H. destruct l as [|a [|b l]]; [destruct (proj2 (H x) eq_refl)|reflexivity|].
  assert (a = x) by (apply H; simpl; auto). assert (b = x) by (apply H; simpl; auto). subst. inversion N as [|? ? N1 _]. destruct N1. simpl; auto.
Qed.
Lemma c_shape : mps_shape h3 ts.
Proof.
  unfold mps_shape. rewrite Len. split; [intros E; rewrite E in Len; cbn in Len; lia|]. split; [|split].
  - intros i Hi. fold (t i) (t (S i)). apply (one_elem _ (R i, L (S i))).
    + unfold shared. rewrite !c_legs. apply (NoDup_map_inv fst). apply pairs_fst_NoDup. apply site_nodup. lia.
    + intros [l l']. unfold shared. rewrite pairs_In, !c_legs. split.
      * intros (Hl & Hl' & K). destruct (c_sites i (S i) l l' ltac:(lia) Hi Hl Hl' K) as [(_ & -> & ->)|(X & _)]; [reflexivity|lia].
      * intros E. injection E as -> ->. split; [now apply R_in|]. split; [now apply L_in|now apply c_link].
  - intros _. fold (t 0) (t (n - 1)). rewrite !c_legs, !Legs by lia. destruct (Nat.ltb_spec 1 n); [|lia]. destruct (Nat.ltb_spec 0 (n - 1)); [|lia]. destruct (Nat.ltb_spec (S (n - 1)) n); [lia|]. split; reflexivity.
  - intros i H0 Hi. fold (t i). rewrite c_legs, Legs by lia. destruct (Nat.ltb_spec 0 i); [|lia]. destruct (Nat.ltb_spec (S i) n); [|lia]. reflexivity.
Qed.
Lemma c_others : no_other_links h3 ts.
Proof.
  unfold no_other_links. rewrite Len. split; [|split; [|lia]].
  - intros i j Hij Hj. fold (t i) (t j). destruct (shared h3 (t i) (t j)) as [|[l l'] S0] eqn:E; [reflexivity|]. exfalso.
    assert (K : In (l, l') (shared h3 (t i) (t j))) by (rewrite E; simpl; auto). unfold shared in K. rewrite pairs_In, !c_legs in K. destruct K as (Hl & Hl' & K).
    destruct (c_sites i j l l' ltac:(lia) Hj Hl Hl' K) as [(X & _)|(X & _)]; lia.
  - intros u l l' Hu Hl Hl' K. destruct (In_nth ts u 0 Hu) as (i & Hi & E). fold (t i) in E. rewrite <- E, c_legs in Hl, Hl'. rewrite Len in Hi.
    destruct (c_sites i i l l' Hi Hi Hl Hl' K) as [(X & _)|(X & _)]; lia.
Qed.
(** the chain that the constructor makes of it *)
Lemma c_chain chi : exists h4 os lf rt,
  newMps ts (Some chi) h3 = (h4, Ok (mkMps ts (if Z.ltb chi (-1) then -1 else chi)%Z None, Z.ltb chi (-1))) /\ net_same h3 h4 /\ mps_named h3 ts h4 /\
  chain h4 ts os [] lf rt /\ (forall i, i < n -> nth i os 0 = P i) /\ (forall i, S i < n -> rt i = R i /\ lf (S i) = L (S i)).
Proof.
  destruct (newMps_ok h3 ts (Some chi) c_net) as [N1 _]. destruct (N1 c_shape) as (h4 & E & NS & MN).
  destruct (new_chain h3 h4 ts [] c_open c_shape c_others) as (os & lf & rt & CH); auto.
  { intros u Hu. rewrite (la_tens _ _ _ LA). auto. }
  exists h4, os, lf, rt. split; [exact E|]. split; [exact NS|]. split; [exact MN|]. split; [exact CH|].
  assert (SL : forall i, i < n -> legs_of h4 (t i) = legs_of h (t i)) by (intros i _; rewrite (ns_legs_of _ _ NS); apply c_legs).
  assert (PM : forall i, i < n -> Permutation (legs_of h (t i)) (opt (Nat.ltb 0 i) (lf i) ++ opt (Nat.ltb (S i) n) (rt i) ++ [nth i os 0])).
  { intros i Hi. rewrite <- SL by auto. rewrite <- Len in *. apply (ch_legs _ _ _ _ _ _ CH i Hi). }
  assert (RT : forall i, S i < n -> rt i = R i /\ lf (S i) = L (S i)).
  { intros i Hi. pose proof (ch_link _ _ _ _ _ _ CH i ltac:(lia)) as K. apply (ns_linked _ _ NS) in K.
    assert (H1 : In (rt i) (legs_of h (t i))).
    { apply (Permutation_in _ (Permutation_sym (PM i ltac:(lia)))). rewrite !in_app_iff. destruct (Nat.ltb_spec (S i) n); [|lia]. simpl; auto. }
    assert (H2 : In (lf (S i)) (legs_of h (t (S i)))).
    { apply (Permutation_in _ (Permutation_sym (PM (S i) ltac:(lia)))). simpl; auto. }
    destruct (c_sites i (S i) _ _ ltac:(lia) Hi H1 H2 K) as [(_ & X & Y)|(X & _)]; [auto|lia]. }
  split; [|exact RT]. intros i Hi.
  assert (H1 : In (nth i os 0) (legs_of h (t i))) by (apply (Permutation_in _ (Permutation_sym (PM i Hi))); rewrite !in_app_iff; simpl; auto).
  assert (Ho : In (nth i os 0) os) by (apply nth_In; rewrite (ch_len _ _ _ _ _ _ CH); lia).
  destruct (leg_cases i _ Hi H1) as [X|[(j & -> & X)|(Hs & X)]]; [exact X| |]; exfalso.
  - apply (ch_out _ _ _ _ _ _ CH (nth (S j) os 0) (R j) Ho).
    + rewrite (ns_all _ _ NS), c_all. eapply all_in; [|apply R_in; lia]. lia.
    + apply (ns_linked _ _ NS). rewrite X. apply c_linked; [eapply all_in; [|apply L_in; lia]; lia|]. exists j. auto.
  - apply (ch_out _ _ _ _ _ _ CH (nth i os 0) (L (S i)) Ho).
    + rewrite (ns_all _ _ NS), c_all. eapply all_in; [|apply L_in; lia]. lia.
    + apply (ns_linked _ _ NS). rewrite X. now apply c_link.
Qed.
End Ch.

(** ** the whole *)
Definition optl {X} (b : bool) (x : X) : list X := if b then [x] else [].
Lemma shapes_len n vd pd : 2 <= n -> List.length (shapes n vd pd) = n.
Proof. intros H. unfold shapes. cbn [List.length]. rewrite app_length, map_length, seq_length. cbn. lia. Qed.
Lemma shapes_nth n vd pd i : 2 <= n -> List.length vd = n - 1 -> List.length pd = n -> i < n ->
  nth i (shapes n vd pd) [] = ("p", nth i pd 0) :: optl (Nat.ltb 0 i) (lname n i, nth (i - 1) vd 0) ++ optl (Nat.ltb (S i) n) (rname i, nth i vd 0).
Proof.
  intros Hn Lv Lp Hi. unfold shapes. destruct i as [|i].
  - cbn [nth]. destruct (Nat.ltb_spec 1 n); [reflexivity|lia].
  - cbn [nth]. destruct (Nat.ltb_spec (S (S i)) n) as [K|K].
    + rewrite app_nth1 by (rewrite map_length, seq_length; lia).
      set (f := fun i => [("p", nth (i + 1) pd 0); ("vl", nth i vd 0); ("vr", nth (i + 1) vd 0)]).
      rewrite (nth_indep _ [] (f 0)) by (rewrite map_length, seq_length; lia). rewrite map_nth, seq_nth by lia. unfold f, lname, rname. destruct (Nat.eqb_spec (S (S i)) n); [lia|]. rewrite Nat.add_0_l. rewrite !Nat.add_1_r. replace (S i - 1) with i by lia. reflexivity.
    + assert (n = S (S i)) as E by lia. rewrite app_nth2 by (rewrite map_length, seq_length; lia). rewrite map_length, seq_length. replace (i - (n - 2)) with 0 by lia.
      cbn [nth]. rewrite !last_is, Lv, Lp. unfold lname. destruct (Nat.eqb_spec (S (S i)) n); [|lia]. replace (n - 1 - 1) with (S i - 1) by lia. replace (n - 1) with (S i) by lia. reflexivity.
Qed.
Lemma dims_len d n l : dims_are d n l -> List.length l = n.
Proof. destruct d as [k|l']; cbn; [intros ->; apply repeat_length|intros (-> & H); exact H]. Qed.
Lemma expand_ok d n l (h : heap) : dims_are d n l -> expand d n h = (h, Ok l).
Proof. destruct d as [k|l']; cbn; [intros ->; reflexivity|]. intros (-> & <-). unfold bind, assert. rewrite Nat.eqb_refl. reflexivity. Qed.
Lemma expand_no d n (h : heap) : (forall l, ~ dims_are d n l) -> expand d n h = (h, Err AssertionError).
Proof.
  destruct d as [k|l']; cbn; intros H; [destruct (H _ eq_refl)|]. unfold bind, assert. destruct (Nat.eqb_spec (List.length l') n) as [E|E]; [destruct (H l'); auto|reflexivity].
Qed.
Lemma Forall2_nth {X Y} (Q : X -> Y -> Prop) a b : forall xs ys, Forall2 Q xs ys -> forall i, i < List.length ys -> Q (nth i xs a) (nth i ys b).
Proof. induction 1 as [|x y xs ys K _ IH]; intros i Hi; [cbn in Hi; lia|]. destruct i as [|i]; cbn; auto. apply IH. cbn in Hi. lia. Qed.
Lemma leg_eq (a b : leg) : l_tensor a = l_tensor b -> l_dim a = l_dim b -> l_name a = l_name b -> l_bond a = l_bond b -> a = b.
Proof. destruct a, b; cbn; congruence. Qed.


Lemma total_S : forall ms i, i < List.length ms -> total (firstn (S i) ms) = total (firstn i ms) + prodn (map snd (nth i ms [])).
Proof.
  induction ms as [|m ms IH]; intros i Hi; cbn in Hi; [lia|]. destruct i as [|i]; [cbn [firstn total nth]; lia|]. change (firstn (S (S i)) (m :: ms)) with (m :: firstn (S i) ms).
  change (firstn (S i) (m :: ms)) with (m :: firstn i ms). cbn [total nth]. rewrite (IH i) by lia. lia.
Qed.
Lemma randomMPS_ok (h : heap) n v p chi vd pd : 1 < n -> dims_are v (n - 1) vd -> dims_are p n pd ->
  let c := if Z.eqb chi (-1) then Z.of_nat (nth 0 vd 0) else chi in
  exists h' ts os lf rt, makeRandomMPS num n v p chi h = (h', Ok (mkMps ts (if Z.ltb c (-1) then -1 else c)%Z None, Z.ltb c (-1))) /\
    List.length ts = n /\ chain h' ts os [] lf rt /\
    (forall i, i < n -> dim_of h' (nth i os 0) = nth i pd 0) /\ (forall i, S i < n -> dim_of h' (rt i) = nth i vd 0) /\
    (forall i, i < n -> legs_of h' (nth i ts 0) = nth i os 0 :: opt (Nat.ltb 0 i) (lf i) ++ opt (Nat.ltb (S i) n) (rt i)) /\
    (exists pos : nat -> nat, pos 0 = rpos h /\ forall i, i < n -> pos (S i) = pos i + prodn (dims_of h' (nth i ts 0)) /\ drawn num h (pos i) h' (nth i ts 0)) /\
    (forall t, In t ts -> ntens h <= t) /\ keeps h h'.
Proof.
  intros Hn Dv Dp c. pose proof (dims_len _ _ _ Dv) as Lv. pose proof (dims_len _ _ _ Dp) as Lp.
  destruct (sites_ok (shapes n vd pd) h) as (h1 & ts & E1 & [q1 q2 q3 q4 q5 q6 q7 q8 q9]).
  assert (Len : List.length ts = n) by (rewrite <- (shapes_len n vd pd) by lia; symmetry; clear -q7; induction q7; cbn; auto).
  assert (ST : forall i, i < n -> is_site h h1 (nth i (shapes n vd pd) []) (nth i ts 0)) by (intros i Hi; apply Forall2_nth; auto; lia).
  assert (SI : forall t, In t ts -> exists i, i < n /\ t = nth i ts 0) by (intros t Ht; destruct (In_nth ts t 0 Ht) as (i & Hi & E); exists i; split; [lia|auto]).
  assert (DA : forall t, In t ts -> t_like (tens h1 t) = false /\ t_arr (tens h1 t) <> None).
  { intros t Ht. destruct (SI t Ht) as (i & Hi & ->). destruct (ST i Hi) as [_ W _ _ _ (_ & D2) _]. split; auto. pose proof (wt_data _ _ W) as X. unfold data_ok in X. rewrite D2 in X. destruct (t_arr _); [discriminate|destruct X]. }
  destruct (scaled_ok ts h1 q8 DA) as (h2 & E2 & [z1 z2 z3 z4 z5 z6 z7]).
  assert (LG : forall t, legs_of h2 t = legs_of h1 t).
  { intros t. unfold legs_of. destruct (in_dec Nat.eq_dec t ts) as [I|I]; [|now rewrite z6]. destruct (z7 t I) as (a & _ & ->). reflexivity. }
  assert (AL : all_legs h2 ts = all_legs h1 ts) by (unfold all_legs; rewrite !flat_map_concat_map; f_equal; apply map_ext; exact LG).
  assert (W2 : forall t, In t ts -> wf_tensor h2 t /\ owned h2 t).
  { intros t Ht. destruct (SI t Ht) as (i & Hi & Ei). destruct (ST i Hi) as [_ W O _ _ _ _]. rewrite <- Ei in W, O. destruct (z7 t Ht) as (a & Ea & Et). split.
    - destruct W as [w1 w2 w3 w4 w5]. constructor; rewrite ?LG, ?z3, ?z5; auto.
      + unfold data_ok in *. rewrite Et. cbn. rewrite Ea in w4. destruct (t_like (tens h1 t)); [exact w4|]. destruct w4 as (y1 & y2). split; [now rewrite map_length|]. rewrite y2. unfold dim_of. now rewrite z1.
      + rewrite Et. cbn. unfold dim_of in *. rewrite z1. exact w5.
    - intros l Hl. rewrite LG in Hl. rewrite z1. now apply O. }
  set (P := fun i => nth 0 (legs_of h2 (nth i ts 0)) 0). set (L := fun i => nth 1 (legs_of h2 (nth i ts 0)) 0).
  set (R := fun i => nth (if Nat.eqb i 0 then 1 else 2) (legs_of h2 (nth i ts 0)) 0).
  assert (NM : forall i, i < n -> map (fun l => l_name (legs h2 l)) (legs_of h2 (nth i ts 0)) = map NStr (map fst (nth i (shapes n vd pd) []))).
  { intros i Hi. rewrite LG, z1. apply (is_names _ _ _ _ (ST i Hi)). }
  assert (DM : forall i, i < n -> map (dim_of h2) (legs_of h2 (nth i ts 0)) = map snd (nth i (shapes n vd pd) [])).
  { intros i Hi. unfold dim_of. rewrite LG, z1. apply (is_dims _ _ _ _ (ST i Hi)). }
  assert (INF : forall i, i < n -> legs_of h2 (nth i ts 0) = P i :: opt (Nat.ltb 0 i) (L i) ++ opt (Nat.ltb (S i) n) (R i) /\
     l_name (legs h2 (P i)) = NStr "p" /\ dim_of h2 (P i) = nth i pd 0 /\
     (0 < i -> l_name (legs h2 (L i)) = NStr (lname n i) /\ dim_of h2 (L i) = nth (i - 1) vd 0) /\
     (S i < n -> l_name (legs h2 (R i)) = NStr (rname i) /\ dim_of h2 (R i) = nth i vd 0)).
  { intros i Hi. specialize (NM i Hi). specialize (DM i Hi). rewrite shapes_nth in NM, DM by lia. unfold P, L, R. clear -NM DM Hn Hi.
    destruct (Nat.ltb_spec 0 i) as [K1|K1]; destruct (Nat.ltb_spec (S i) n) as [K2|K2]; cbn [optl app map fst snd] in NM, DM; try lia;
      destruct (legs_of h2 (nth i ts 0)) as [|x [|y [|z [|w ls]]]]; cbn [map] in NM, DM; try discriminate;
      destruct (Nat.eqb_spec i 0); try lia; cbn [nth opt app]; injection NM; injection DM; intros; (split; [reflexivity|]); (split; [assumption|]); (split; [assumption|]); split; intros; try lia; split; assumption. }
  assert (Free : forall l, In l (all_legs h2 ts) -> nleg h <= l /\ l_bond (legs h2 l) = None).
  { intros l Hl. rewrite AL in Hl. apply all_legs_In in Hl as (t & Ht & Hl). rewrite z1. destruct (SI t Ht) as (i & Hi & ->). now apply (is_new _ _ _ _ (ST i Hi)). }
  assert (HF : forall l, In l (all_legs h2 ts) -> l_bond (legs h2 l) = None) by (intros l Hl; apply Free, Hl).
  assert (HN : NoDup (all_legs h2 ts)) by (rewrite AL; exact q9).
  assert (HK : forall u, In u ts -> t_diag (tens h2 u) = false /\ t_like (tens h2 u) = false).
  { intros t Ht. destruct (z7 t Ht) as (a & _ & ->). cbn. destruct (SI t Ht) as (i & Hi & ->). apply (is_dense _ _ _ _ (ST i Hi)). }
  assert (HL : forall i, i < n -> legs_of h2 (nth i ts 0) = P i :: opt (Nat.ltb 0 i) (L i) ++ opt (Nat.ltb (S i) n) (R i)) by (intros i Hi; apply INF, Hi).
  assert (HP : forall i, i < n -> l_name (legs h2 (P i)) = NStr "p") by (intros i Hi; apply INF, Hi).
  assert (HNL : forall i, S i < n -> l_name (legs h2 (L (S i))) = NStr (lname n (S i))) by (intros i Hi; apply INF; lia).
  assert (HNR : forall i, S i < n -> l_name (legs h2 (R i)) = NStr (rname i)) by (intros i Hi; apply INF; lia).
  assert (HDR : forall i, S i < n -> dim_of h2 (R i) = nth i vd 0) by (intros i Hi; apply INF; lia).
  assert (HDM : forall i, S i < n -> dim_of h2 (R i) = dim_of h2 (L (S i))).
  { intros i Hi. rewrite HDR by auto. destruct (INF (S i) Hi) as (_ & _ & _ & X & _). destruct X as (_ & ->); [lia|]. f_equal. lia. }
  destruct (run_links h2 n ts P L R) as (h3 & E3 & LM); auto. pose proof (lm_added _ _ _ LM) as LA.
  destruct (c_chain h2 n ts P L R) with (h3 := h3) (chi := c) as (h4 & os & lf & rt & E4 & NS & MN & CH & HO & HR); auto.
  exists h4, ts, os, lf, rt. split; [|split; [exact Len|split; [exact CH|split; [|split; [|split; [|split; [|split]]]]]]].
  - unfold makeRandomMPS. unfold bind at 1, assert. destruct (Nat.ltb_spec 1 n); [|lia]. unfold ret at 1. rewrite (SchmidtProofs.bind_ok _ _ _ _ _ (expand_ok _ _ _ h Dv)). rewrite (SchmidtProofs.bind_ok _ _ _ _ _ (expand_ok _ _ _ h Dp)).
    cbv zeta. rewrite (SchmidtProofs.bind_ok _ _ _ _ _ E1), (SchmidtProofs.bind_ok _ _ _ _ _ E2), (SchmidtProofs.bind_ok _ _ _ _ _ E3). exact E4.
  - intros i Hi. rewrite HO by auto. rewrite (ns_dim _ _ NS). unfold dim_of. destruct (la_fields _ _ _ LA (P i)) as (_ & -> & _). apply INF, Hi.
  - intros i Hi. destruct (HR i Hi) as (-> & _). rewrite (ns_dim _ _ NS). unfold dim_of. destruct (la_fields _ _ _ LA (R i)) as (_ & -> & _). now apply HDR.
  - intros i Hi. rewrite (ns_legs_of _ _ NS), (F_legs _ _ _ LA), HL, HO by auto. f_equal. f_equal.
    + destruct i as [|i]; [reflexivity|]. cbn. f_equal. symmetry. apply HR, Hi.
    + destruct (Nat.ltb_spec (S i) n) as [K|K]; [|reflexivity]. cbn. f_equal. symmetry. now apply HR.
  - assert (DD : forall i, i < n -> dims_of h4 (nth i ts 0) = map snd (nth i (shapes n vd pd) [])).
    { intros i Hi. rewrite <- DM by auto. unfold dims_of. rewrite (ns_legs_of _ _ NS), (F_legs _ _ _ LA). apply map_ext. intros l. rewrite (ns_dim _ _ NS). apply (F_dim _ _ _ LA). }
    exists (fun i => rpos h + total (firstn i (shapes n vd pd))). split; [cbn; lia|]. intros i Hi. rewrite DD by auto. split.
    + rewrite total_S by (rewrite shapes_len; lia). lia.
    + unfold drawn. rewrite DD by auto. destruct (z7 (nth i ts 0)) as (a & Ea & Et); [apply nth_In; lia|]. rewrite (ns_tens _ _ NS), (la_tens _ _ _ LA), Et. cbn [t_arr].
      rewrite (draws_ok _ _ _ _ E1 i) in Ea by (rewrite shapes_len; lia). injection Ea as <-. reflexivity.
  - intros t Ht. destruct (SI t Ht) as (i & Hi & ->). apply (is_id _ _ _ _ (ST i Hi)).
  - assert (NT : forall t, t < ntens h -> ~ In t ts).
    { intros t Ht I. destruct (SI t I) as (i & Hi & Ei). destruct (is_id _ _ _ _ (ST i Hi)). lia. }
    assert (NLg : forall l, l < nleg h -> ~ In l (all_legs h2 ts)) by (intros l Hl I; apply Free in I; lia).
    split; [|split].
    + intros t Ht. rewrite (ns_tens _ _ NS), (la_tens _ _ _ LA), z6 by auto. auto.
    + intros l Hl. rewrite <- q1 by auto. rewrite <- z1. transitivity (legs h3 l).
      * destruct (ns_leg _ _ NS l) as (X1 & X2 & X3). apply leg_eq; auto. apply (mn_else _ _ _ MN). rewrite (F_all _ _ _ LA). auto.
      * apply (la_out _ _ _ LA). intros I. apply (NLg l Hl). eapply ps_legs; eauto.
    + intros b Hb. rewrite <- q2, <- z2. rewrite <- !(la_bonds _ _ _ LA) by lia. apply (ns_bonds _ _ NS b).
Qed.
Lemma randomMPS_raises (h : heap) n v p chi : (n <= 1 \/ (forall l, ~ dims_are v (n - 1) l) \/ (forall l, ~ dims_are p n l)) -> makeRandomMPS num n v p chi h = (h, Err AssertionError).
Proof.
  intros H. unfold makeRandomMPS. unfold bind at 1, assert. destruct (Nat.ltb_spec 1 n) as [K|K]; [|reflexivity]. unfold ret at 1.
  destruct (expand v (n - 1) h) as [hv rv] eqn:Ev. 
  assert (hv = h /\ (rv = Err AssertionError \/ exists l, rv = Ok l /\ dims_are v (n - 1) l)) as (-> & [-> |(vd & -> & Dv)]).
  { destruct v as [k|l]; cbn in Ev; [injection Ev as <- <-; split; auto; right; eexists; split; [reflexivity|reflexivity]|].
    unfold bind, assert in Ev. destruct (Nat.eqb_spec (List.length l) (n - 1)) as [X|X]; cbn in Ev; injection Ev as <- <-; split; auto. right. exists l. split; auto. cbn. auto. }
  - unfold bind at 1. rewrite Ev. reflexivity.
  - destruct H as [H|[H|H]]; [lia|destruct (H vd Dv)|]. rewrite (SchmidtProofs.bind_ok _ _ _ _ _ Ev). unfold bind at 1. rewrite (expand_no p n h H). reflexivity.
Qed.
End Rm.
