(** The links made from equal names. *)
From Coq Require Import List Arith Bool String Ascii Lia Sorted.
From Verif Require Import Base FuncsProofs SumpairsProofs TextModel TextSpec TextProofs.
Import ListNotations.
Local Open Scope nat_scope.

(** ** the table of names *)
Fixpoint positions (n : string) (N : list string) (i : nat) : list nat :=
  match N with [] => [] | x :: N' => (if dec x n then [i] else []) ++ positions n N' (S i) end.
Lemma positions_In n N : forall i j, In j (positions n N i) <-> i <= j /\ nth_error N (j - i) = Some n.
Proof.
  induction N as [|x N IH]; intros i j; cbn [positions].
  - split; [intros []|intros (_ & E); destruct (j - i); discriminate].
  - rewrite in_app_iff, IH. split.
    + intros [H|(H & E)].
      * destruct (dec x n) as [->|]; [|destruct H]. destruct H as [<-|[]]. rewrite Nat.sub_diag. auto.
      * split; [lia|]. replace (j - i) with (S (j - S i)) by lia. exact E.
    + intros (H & E). destruct (Nat.eq_dec i j) as [->|Nj].
      * left. rewrite Nat.sub_diag in E. injection E as ->. destruct (dec n n); [simpl; auto|congruence].
      * right. split; [lia|]. replace (j - i) with (S (j - S i)) in E by lia. exact E.
Qed.
Lemma positions_sorted n N : forall i, StronglySorted Nat.lt (positions n N i).
Proof.
  induction N as [|x N IH]; intros i; cbn [positions]; [constructor|]. destruct (dec x n); [|apply IH]. cbn [app]. constructor; [apply IH|].
  apply Forall_forall. intros j Hj. apply positions_In in Hj. lia.
Qed.
Lemma addLeg_In m x i : NoDup (map fst m) -> forall n l, In (n, l) (addLeg m x i) <->
  (n <> x /\ In (n, l) m) \/ (n = x /\ exists l0, In (x, l0) m /\ l = l0 ++ [i]) \/ (n = x /\ ~ In x (map fst m) /\ l = [i]).
Proof.
  induction m as [|[y k] m IH]; intros ND n l; cbn [addLeg].
  - simpl. split.
    + intros [E|[]]. injection E as <- <-. auto 6.
    + intros [(_ & [])|[(_ & l0 & [] & _)|(-> & _ & ->)]]. auto.
  - inversion ND as [|? ? N1 N2]; subst. cbn [fst] in N1. destruct (dec y x) as [->|Ny].
    + simpl. split.
      * intros [E|H]; [injection E as <- <-; right; left; eauto|]. left. split; auto. intros ->. apply N1. now apply (in_map fst) in H.
      * intros [(Hn & [E|H])|[(-> & l0 & [E|H] & ->)|(_ & H & _)]]; [injection E as -> _; congruence|auto|injection E as <-; auto|exfalso; apply N1; now apply (in_map fst) in H|tauto].
    + cbn [In map fst]. rewrite (IH N2). split.
      * intros [E|[(H1 & H2)|[(-> & l0 & H1 & H2)|(-> & H1 & H2)]]]; [injection E as <- <-; auto|auto|right; left; eauto 6|right; right; split; auto; split; [intros [X|X]; [congruence|auto]|auto]].
      * intros [(H1 & [E|H2])|[(-> & l0 & [E|H1] & H2)|(-> & H1 & H2)]]; [auto|auto|injection E; congruence|right; right; left; eauto|right; right; right; tauto].
Qed.
Lemma addLeg_keys m x i : NoDup (map fst m) -> NoDup (map fst (addLeg m x i)) /\ forall n, In n (map fst (addLeg m x i)) <-> n = x \/ In n (map fst m).
Proof.
  induction m as [|[y k] m IH]; intros ND; cbn [addLeg].
  - simpl. split; [repeat constructor; auto|]. intros n. split; [intros [->|[]]; auto|intros [->|[]]; auto].
  - inversion ND as [|? ? N1 N2]; subst. destruct (dec y x) as [->|Ny]; [simpl; split; [exact ND|intuition congruence]|].
    destruct (IH N2) as (K1 & K2). simpl. split; [constructor; auto; rewrite K2; intros [->|X]; auto|]. intros n. rewrite K2. intuition.
Qed.
Lemma legTable_In N : forall i m, NoDup (map fst m) -> NoDup (map fst (legTable N i m)) /\ forall n l, In (n, l) (legTable N i m) <->
  (exists l0, In (n, l0) m /\ l = l0 ++ positions n N i) \/ (~ In n (map fst m) /\ In n N /\ l = positions n N i).
Proof.
  induction N as [|x N IH]; intros i m ND; cbn [legTable positions].
  - split; auto. intros n l. split; [intros H; left; exists l; rewrite app_nil_r; auto|]. intros [(l0 & H & ->)|(_ & [] & _)]. now rewrite app_nil_r.
  - destruct (addLeg_keys m x i ND) as (K1 & K2). destruct (IH (S i) _ K1) as (H1 & H2). split; [exact H1|]. intros n l. rewrite H2. split.
    + intros [(l0 & H & ->)|(H & H3 & ->)].
      * apply (addLeg_In m x i ND) in H as [(Nx & H)|[(-> & l1 & H & ->)|(-> & Hx & ->)]].
        -- left. exists l0. split; auto. destruct (dec x n); [congruence|]. reflexivity.
        -- left. exists l1. split; auto. destruct (dec x x); [|congruence]. now rewrite <- app_assoc.
        -- right. split; auto. split; [simpl; auto|]. destruct (dec x x); [reflexivity|congruence].
      * rewrite K2 in H. right. split; [tauto|]. split; [simpl; auto|]. destruct (dec x n) as [->|]; [tauto|reflexivity].
    + intros [(l0 & H & ->)|(H & H3 & ->)].
      * left. destruct (dec x n) as [->|Nx].
        -- exists (l0 ++ [i]). split; [|now rewrite <- app_assoc]. apply addLeg_In; auto. right; left. eauto.
        -- exists l0. split; [apply addLeg_In; auto|reflexivity].
      * destruct (dec x n) as [->|Nx].
        -- left. exists [i]. split; [|reflexivity]. apply addLeg_In; auto.
        -- right. rewrite K2. split; [intros [->|X]; [congruence|auto]|]. split; [destruct H3; [congruence|auto]|reflexivity].
Qed.
Lemma table_In N n l : In (n, l) (legTable N 0 []) <-> In n N /\ l = positions n N 0.
Proof.
  destruct (legTable_In N 0 []) as (_ & H); [constructor|]. rewrite H. split; [intros [(l0 & [] & _)|(_ & H1 & H2)]; auto|intros (H1 & H2); right; auto].
Qed.

(** ** dimensions *)
Lemma setDim_len d : forall i x, List.length (setDim d i x) = List.length d.
Proof. induction d as [|y d IH]; intros [|i] x; simpl; auto. Qed.
Lemma setDim_same d : forall i x, i < List.length d -> dimOf (setDim d i x) i = x.
Proof. unfold dimOf. induction d as [|y d IH]; intros [|i] x H; simpl in *; try lia; auto. apply IH. lia. Qed.
Lemma setDim_other d : forall i j x, i <> j -> dimOf (setDim d i x) j = dimOf d j.
Proof. unfold dimOf. induction d as [|y d IH]; intros [|i] [|j] x H; simpl in *; try lia; auto. Qed.

Definition joinD (a b : option nat) : option nat := match a with Some _ => a | None => b end.
Definition pair_of (g : string * list nat) : list (nat * nat) := match snd g with [a; b] => [(a, b)] | _ => [] end.
Definition good (g : string * list nat) (dims : list (option nat)) : Prop :=
  List.length (snd g) <= 2 /\ forall a b, snd g = [a; b] -> compatible (dimOf dims a) (dimOf dims b).
Lemma linkName_cases g dims links : NoDup (snd g) -> (forall i, In i (snd g) -> i < List.length dims) ->
  (good g dims /\ exists dims', linkName g (dims, links) = Ok (dims', links ++ pair_of g) /\ List.length dims' = List.length dims /\
     (forall i, ~ In i (snd g) -> dimOf dims' i = dimOf dims i) /\
     (forall a b, snd g = [a; b] -> dimOf dims' a = joinD (dimOf dims a) (dimOf dims b) /\ dimOf dims' b = joinD (dimOf dims a) (dimOf dims b)) /\
     (List.length (snd g) <> 2 -> dims' = dims)) \/
  (~ good g dims /\ linkName g (dims, links) = Err AssertionError).
Proof.
  intros ND HL. destruct g as [n l]. unfold good, pair_of, linkName. cbn [snd] in *.
  destruct l as [|a [|b [|c l]]].
  - left. split; [split; [simpl; lia|discriminate]|]. exists dims. rewrite app_nil_r. cbn. repeat split; auto; discriminate.
  - left. split; [split; [simpl; lia|discriminate]|]. exists dims. rewrite app_nil_r. cbn. repeat split; auto; discriminate.
  - assert (a <> b) as Nab by (inversion ND as [|? ? X _]; subst; simpl in X; intuition). assert (La : a < List.length dims) by (apply HL; simpl; auto). assert (Lb : b < List.length dims) by (apply HL; simpl; auto).
    destruct (dimOf dims a) as [x|] eqn:Ea; destruct (dimOf dims b) as [y|] eqn:Eb.
    + rewrite Ea, Eb. destruct (Nat.eqb_spec x y) as [->|Nxy].
      * left. split; [split; [simpl; lia|]; intros ? ? E; injection E as <- <-; rewrite Ea, Eb; reflexivity|]. exists dims.
        split; [reflexivity|]. split; [reflexivity|]. split; [auto|]. split; [intros ? ? E; injection E as <- <-; rewrite Ea, Eb; auto|auto].
      * right. split; auto. intros (_ & X). specialize (X a b eq_refl). rewrite Ea, Eb in X. auto.
    + left. split; [split; [simpl; lia|]; intros ? ? E; injection E as <- <-; rewrite Ea, Eb; reflexivity|]. exists (setDim dims b (Some x)).
      rewrite (setDim_other dims b a) by auto. rewrite Ea, setDim_same by exact Lb. rewrite Nat.eqb_refl. split; [reflexivity|]. split; [apply setDim_len|].
      split; [intros i Hi; apply setDim_other; simpl in Hi; intuition|]. split; [|simpl; congruence].
      intros ? ? E; injection E as <- <-. rewrite (setDim_other dims b a) by auto. rewrite setDim_same by exact Lb. rewrite Ea, Eb. auto.
    + left. split; [split; [simpl; lia|]; intros ? ? E; injection E as <- <-; rewrite Ea, Eb; reflexivity|]. exists (setDim dims a (Some y)).
      rewrite (setDim_other dims a b) by auto. rewrite Eb, setDim_same by exact La. rewrite Nat.eqb_refl. split; [reflexivity|]. split; [apply setDim_len|].
      split; [intros i Hi; apply setDim_other; simpl in Hi; intuition|]. split; [|simpl; congruence].
      intros ? ? E; injection E as <- <-. rewrite (setDim_other dims a b) by auto. rewrite setDim_same by exact La. rewrite Ea, Eb. auto.
    + left. split; [split; [simpl; lia|]; intros ? ? E; injection E as <- <-; rewrite Ea, Eb; reflexivity|]. exists (setDim dims a None).
      rewrite (setDim_other dims a b) by auto. rewrite Eb, setDim_same by exact La. split; [reflexivity|]. split; [apply setDim_len|].
      split; [intros i Hi; apply setDim_other; simpl in Hi; intuition|]. split; [|simpl; congruence].
      intros ? ? E; injection E as <- <-. rewrite (setDim_other dims a b) by auto. rewrite setDim_same by exact La. rewrite Ea, Eb. auto.
  - right. split; [intros (X & _); simpl in X; lia|]. reflexivity.
Qed.
Lemma linkNames_cases G : forall dims links, NoDup (flat_map snd G) -> (forall i, In i (flat_map snd G) -> i < List.length dims) ->
  ((forall g, In g G -> good g dims) /\ exists dims', linkNames G (dims, links) = Ok (dims', links ++ flat_map pair_of G) /\ List.length dims' = List.length dims /\
     (forall g a b, In g G -> snd g = [a; b] -> dimOf dims' a = joinD (dimOf dims a) (dimOf dims b) /\ dimOf dims' b = joinD (dimOf dims a) (dimOf dims b)) /\
     (forall i, (forall g, In g G -> List.length (snd g) = 2 -> ~ In i (snd g)) -> dimOf dims' i = dimOf dims i)) \/
  ((exists g, In g G /\ ~ good g dims) /\ linkNames G (dims, links) = Err AssertionError).
Proof.
  induction G as [|g G IH]; intros dims links ND HL; cbn [linkNames flat_map].
  - left. split; [intros g []|]. exists dims. rewrite app_nil_r. repeat split; auto; contradiction.
  - cbn [flat_map] in ND, HL. pose proof (NoDup_app_l _ _ ND) as N1. pose proof (NoDup_app_r _ _ ND) as N2.
    assert (DJ : forall i, In i (snd g) -> ~ In i (flat_map snd G)) by (intros i H1 H2; exact (NoDup_app_disj _ _ i ND H1 H2)).
    destruct (linkName_cases g dims links N1) as [(Gd & d1 & E1 & L1 & O1 & P1 & S1)|(Bd & E1)]; [intros i Hi; apply HL, in_app_iff; auto| |].
    + rewrite E1. cbn [rbind].
      assert (EQ : forall i, In i (flat_map snd G) -> dimOf d1 i = dimOf dims i) by (intros i Hi; apply O1; intros X; exact (DJ i X Hi)).
      assert (GQ : forall g', In g' G -> (good g' d1 <-> good g' dims)).
      { intros g' Hg. unfold good. assert (forall a b, snd g' = [a; b] -> dimOf d1 a = dimOf dims a /\ dimOf d1 b = dimOf dims b) as X.
        { intros a b E. split; apply EQ; apply in_flat_map; exists g'; rewrite E; simpl; auto. }
        split; intros (H1 & H2); (split; [exact H1|]); intros a b E; destruct (X a b E) as (X1 & X2); specialize (H2 a b E); rewrite ?X1, ?X2 in *; exact H2. }
      destruct (IH d1 (links ++ pair_of g) N2) as [(G2 & d2 & E2 & L2 & P2 & O2)|((g' & Hg & B2) & E2)]; [intros i Hi; rewrite L1; apply HL, in_app_iff; auto| |].
      * left. split; [intros g' [<-|Hg]; [exact Gd|apply GQ; auto]|]. exists d2. rewrite E2, <- app_assoc. split; [reflexivity|]. split; [congruence|]. split.
        -- intros g' a b [<-|Hg] E.
           ++ assert (forall x, In x (snd g) -> dimOf d2 x = dimOf d1 x) as X. { intros x Hx. apply O2. intros g2 Hg2 _ Hx2. apply (DJ x Hx). apply in_flat_map. eauto. }
              rewrite !X by (rewrite E; simpl; auto). apply P1; auto.
           ++ destruct (P2 g' a b Hg E) as (X1 & X2). rewrite !EQ in X1, X2 by (apply in_flat_map; exists g'; rewrite E; simpl; auto). auto.
        -- intros i Hi. rewrite O2 by (intros g' Hg; apply Hi; simpl; auto). destruct (in_dec Nat.eq_dec i (snd g)) as [X|X]; [|apply O1; exact X].
           destruct (Nat.eq_dec (List.length (snd g)) 2) as [Y|Y]; [exfalso; apply (Hi g); simpl; auto|]. now rewrite (S1 Y).
      * right. split; [exists g'; split; [simpl; auto|]; rewrite <- GQ; auto|exact E2].
    + right. split; [exists g; simpl; auto|]. now rewrite E1.
Qed.

(** ** the tensors with their final sizes *)
Lemma combine_fst {X Y} (l : list X) : forall (l' : list Y), List.length l' = List.length l -> map fst (combine l l') = l.
Proof. induction l as [|x l IH]; intros [|y l'] H; simpl in *; try discriminate; auto. f_equal. apply IH. lia. Qed.
Lemma combine_app_len {X Y} (l1 : list X) : forall l2 (d : list Y), combine (l1 ++ l2) d = combine l1 (firstn (List.length l1) d) ++ combine l2 (skipn (List.length l1) d).
Proof. induction l1 as [|x l1 IH]; intros l2 [|y d]; simpl; auto; [now rewrite !combine_nil|]. f_equal. apply IH. Qed.
Lemma withDims_legs ts : forall dims, flat_map snd (withDims ts dims) = combine (map fst (flat_map snd ts)) dims.
Proof.
  induction ts as [|[n ls] ts IH]; intros dims; cbn [withDims flat_map snd map]; [reflexivity|]. rewrite IH, map_app, combine_app_len, map_length. reflexivity.
Qed.
Lemma withDims_names ts : forall dims, map fst (withDims ts dims) = map fst ts.
Proof. induction ts as [|[n ls] ts IH]; intros dims; cbn [withDims map fst]; [reflexivity|]. now rewrite IH. Qed.
Lemma withDims_labels ts : forall dims, List.length dims = List.length (flat_map snd ts) -> map (fun t => map fst (snd t)) (withDims ts dims) = map (fun t => map fst (snd t)) ts.
Proof.
  induction ts as [|[n ls] ts IH]; intros dims H; cbn [withDims map snd]; [reflexivity|]. cbn [flat_map snd] in H. rewrite app_length in H. rewrite IH by (rewrite skipn_length; lia).
  f_equal. apply combine_fst. rewrite firstn_length, map_length. lia.
Qed.
Lemma nth_combine {X Y} (l : list X) : forall (d : list Y) i x y, nth_error (combine l d) i = Some (x, y) <-> nth_error l i = Some x /\ nth_error d i = Some y.
Proof.
  induction l as [|a l IH]; intros [|b d] [|i] x y; simpl; try (split; [discriminate|intros (? & ?); discriminate]); [split; [intros E; injection E as <- <-; auto|intros (E1 & E2); congruence]|apply IH].
Qed.

Section Reading.
Variable T : list ttensor.
Let legs := flat_map snd T.
Let N := map fst legs.
Let G := legTable N 0 [].
Lemma leg_at_N i n : (exists k, leg_at T i n k) <-> nth_error N i = Some n.
Proof.
  unfold leg_at, N, legs. rewrite nth_error_map. destruct (nth_error (flat_map snd T) i) as [[m k]|]; simpl; split.
  - intros (k' & E). congruence.
  - intros E. injection E as ->. eauto.
  - intros (k' & E). discriminate.
  - discriminate.
Qed.
Lemma leg_at_dim i n k : leg_at T i n k -> dimOf (map snd legs) i = k.
Proof. unfold leg_at, dimOf, legs. intros E. erewrite nth_error_nth; [|rewrite nth_error_map, E; reflexivity]. reflexivity. Qed.
Lemma leg_at_fun i n k n' k' : leg_at T i n k -> leg_at T i n' k' -> n = n' /\ k = k'.
Proof. unfold leg_at. intros E1 E2. rewrite E1 in E2. injection E2; auto. Qed.
Lemma group_In g i : In g G -> (In i (snd g) <-> exists k, leg_at T i (fst g) k).
Proof.
  destruct g as [n l]. intros H. apply table_In in H as (_ & ->). cbn [fst snd]. rewrite positions_In, Nat.sub_0_r, leg_at_N. intuition lia.
Qed.
Lemma group_sorted g : In g G -> StronglySorted Nat.lt (snd g).
Proof. destruct g as [n l]. intros H. apply table_In in H as (_ & ->). apply positions_sorted. Qed.
Lemma group_of i n k : leg_at T i n k -> In (n, positions n N 0) G.
Proof. intros H. apply table_In. split; auto. apply (nth_error_In N i), leg_at_N. eauto. Qed.
Lemma sorted_NoDup l : StronglySorted Nat.lt l -> NoDup l.
Proof. induction 1 as [|x l H IH F]; constructor; auto. intros X. rewrite Forall_forall in F. apply F in X. exact (Nat.lt_irrefl _ X). Qed.
Lemma G_disjoint : NoDup (flat_map snd G).
Proof.
  assert (K : NoDup (map fst G)) by (unfold G; destruct (legTable_In N 0 [] ltac:(constructor)); auto).
  assert (Q : forall L, incl L G -> NoDup (map fst L) -> NoDup (flat_map snd L)).
  { induction L as [|g L IH]; intros I ND; cbn [flat_map]; [constructor|]. inversion ND as [|? ? N1 N2]; subst. apply NoDup_app_intro.
    - apply sorted_NoDup, group_sorted, I. simpl; auto.
    - apply IH; auto. intros x Hx. apply I. simpl; auto.
    - intros i H1 H2. apply in_flat_map in H2 as (g' & Hg & H2). assert (G1 : In g G) by (apply I; simpl; auto). assert (G2 : In g' G) by (apply I; simpl; auto).
      apply (group_In g i G1) in H1 as (k1 & H1). apply (group_In g' i G2) in H2 as (k2 & H2). destruct (leg_at_fun _ _ _ _ _ H1 H2) as (E & _). apply N1. rewrite E. now apply in_map. }
  apply Q; auto. apply incl_refl.
Qed.
Lemma G_small i : In i (flat_map snd G) -> i < List.length (map snd legs).
Proof.
  intros H. apply in_flat_map in H as (g & Hg & Hi). apply (group_In g i Hg) in Hi as (k & Hi). rewrite map_length. apply nth_error_Some. unfold leg_at in Hi. unfold legs. congruence.
Qed.
Lemma good_ill : (forall g, In g G -> good g (map snd legs)) -> ~ ill_linked T.
Proof.
  intros Gd [(i & j & k & n & a & b & c & L & H1 & H2 & H3)|(i & j & n & a & b & L & H1 & H2 & NC)].
  - pose proof (group_of _ _ _ H1) as Hg. destruct (Gd _ Hg) as (Len & _). cbn [snd] in Len.
    assert (incl [i; j; k] (positions n N 0)) as I.
    { intros x [<-|[<-|[<-|[]]]]; apply (group_In _ _ Hg); cbn [fst]; eauto. }
    assert (NoDup [i; j; k]) as ND by (repeat constructor; simpl; intuition lia). pose proof (NoDup_incl_length ND I). simpl in *. lia.
  - pose proof (group_of _ _ _ H1) as Hg. pose proof (group_sorted _ Hg) as St. destruct (Gd _ Hg) as (Len & Cp). cbn [snd] in *.
    assert (In i (positions n N 0)) as I1 by (apply (group_In _ _ Hg); cbn [fst]; eauto). assert (In j (positions n N 0)) as I2 by (apply (group_In _ _ Hg); cbn [fst]; eauto).
    destruct (positions n N 0) as [|x [|y [|z l]]] eqn:E; [destruct I1|destruct I1 as [<-|[]]; destruct I2 as [->|[]]; lia| |simpl in Len; lia].
    specialize (Cp x y eq_refl). assert (x < y) as Lxy by (inversion St as [|? ? _ F]; subst; inversion F; auto).
    assert (x = i /\ y = j) as (-> & ->) by (destruct I1 as [<-|[<-|[]]]; destruct I2 as [<-|[<-|[]]]; lia).
    rewrite (leg_at_dim _ _ _ H1), (leg_at_dim _ _ _ H2) in Cp. auto.
Qed.
Lemma bad_ill g : In g G -> ~ good g (map snd legs) -> ill_linked T.
Proof.
  intros Hg B. pose proof (group_sorted g Hg) as St. pose proof (fun i => proj1 (group_In g i Hg)) as GI. unfold good in B.
  destruct (snd g) as [|x [|y [|z l]]] eqn:E.
  - exfalso. apply B. split; [simpl; lia|discriminate].
  - exfalso. apply B. split; [simpl; lia|discriminate].
  - right. assert (x < y) as Lxy by (inversion St as [|? ? _ F]; subst; inversion F; auto).
    destruct (GI x ltac:(simpl; auto)) as (a & Ha). destruct (GI y ltac:(simpl; auto)) as (b & Hb). exists x, y, (fst g), a, b. repeat split; auto. intros C. apply B. split; [simpl; lia|].
    intros ? ? E2. injection E2 as <- <-. now rewrite (leg_at_dim _ _ _ Ha), (leg_at_dim _ _ _ Hb).
  - left. assert (x < y /\ y < z) as (Lxy & Lyz). { inversion St as [|? ? S2 F]; subst. inversion S2 as [|? ? S3 F2]; subst. inversion F; inversion F2; auto. }
    destruct (GI x ltac:(simpl; auto)) as (a & Ha). destruct (GI y ltac:(simpl; auto)) as (b & Hb). destruct (GI z ltac:(simpl; auto)) as (c & Hc).
    exists x, y, z, (fst g), a, b, c. repeat split; auto.
Qed.

Theorem reading : forall TX, Forall2 tensor_text T TX -> T <> [] ->
  (~ ill_linked T /\ exists T' links, createTensorListFromText (cat TX) = Ok (T', links) /\ read_as T T' links) \/
  (ill_linked T /\ createTensorListFromText (cat TX) = Err AssertionError).
Proof.
  intros TX HT NE. unfold createTensorListFromText. rewrite (pieces_round_trip T TX HT NE), (tensors_round_trip T TX HT). cbn [rbind].
  fold legs. fold N. fold G.
  destruct (linkNames_cases G (map snd legs) [] G_disjoint G_small) as [(Gd & dims & E & Len & P & O)|((g & Hg & B) & E)].
  2:{ right. split; [exact (bad_ill g Hg B)|]. rewrite E. reflexivity. }
  left. pose proof (good_ill Gd) as NI. split; [exact NI|]. rewrite E. cbn [rbind fst snd app]. exists (withDims T dims), (flat_map pair_of G). split; [reflexivity|].
  assert (Pair : forall i j, In (i, j) (flat_map pair_of G) <-> i < j /\ exists n a b, leg_at T i n a /\ leg_at T j n b).
  { intros i j. split.
    - intros H. apply in_flat_map in H as (g & Hg & H). unfold pair_of in H. destruct (snd g) as [|x [|y [|z l]]] eqn:E2; try contradiction. destruct H as [H|[]]. injection H as -> ->.
      pose proof (group_sorted g Hg) as St. rewrite E2 in St. split; [inversion St as [|? ? _ F]; subst; inversion F; auto|].
      destruct (proj1 (group_In g i Hg)) as (a & Ha); [rewrite E2; simpl; auto|]. destruct (proj1 (group_In g j Hg)) as (b & Hb); [rewrite E2; simpl; auto|]. eauto 6.
    - intros (L & n & a & b & Ha & Hb). pose proof (group_of _ _ _ Ha) as Hg. apply in_flat_map. eexists; split; [exact Hg|]. unfold pair_of. cbn [snd]. pose proof (group_sorted _ Hg) as St. cbn [snd] in St.
      destruct (Gd _ Hg) as (Ln & _). cbn [snd] in Ln.
      assert (In i (positions n N 0)) as I1 by (apply (group_In _ _ Hg); cbn [fst]; eauto). assert (In j (positions n N 0)) as I2 by (apply (group_In _ _ Hg); cbn [fst]; eauto).
      destruct (positions n N 0) as [|x [|y [|z l]]] eqn:E2; [destruct I1|destruct I1 as [<-|[]]; destruct I2 as [->|[]]; lia| |simpl in Ln; lia].
      assert (x < y) as Lxy by (inversion St as [|? ? _ F]; subst; inversion F; auto).
      assert (x = i /\ y = j) as (-> & ->) by (destruct I1 as [<-|[<-|[]]]; destruct I2 as [<-|[<-|[]]]; lia). simpl; auto. }
  assert (At : forall i n k, leg_at (withDims T dims) i n k <-> (exists k0, leg_at T i n k0) /\ dimOf dims i = k).
  { intros i n k. unfold leg_at at 1. rewrite withDims_legs. fold legs. fold N. rewrite nth_combine, leg_at_N. unfold dimOf. split.
    - intros (H1 & H2). split; auto. apply nth_error_nth. exact H2.
    - intros (H1 & H2). split; auto. rewrite <- H2. apply nth_error_nth'. rewrite Len, map_length. apply nth_error_Some. unfold N in H1. rewrite nth_error_map in H1. destruct (nth_error legs i); [discriminate|discriminate]. }
  assert (Jn : forall i j n a b, i < j -> leg_at T i n a -> leg_at T j n b -> dimOf dims i = joinD a b /\ dimOf dims j = joinD a b).
  { intros i j n a b L Ha Hb. assert (In (i, j) (flat_map pair_of G)) as H by (apply Pair; eauto 6). apply in_flat_map in H as (g & Hg & H). unfold pair_of in H. destruct (snd g) as [|x [|y [|z l]]] eqn:E2; try contradiction. destruct H as [H|[]]. injection H as -> ->.
    rewrite <- (leg_at_dim _ _ _ Ha), <- (leg_at_dim _ _ _ Hb). exact (P g i j Hg E2). }
  assert (Al : forall i n k, leg_at T i n k -> (forall j b, j <> i -> ~ leg_at T j n b) -> dimOf dims i = k).
  { intros i n k Hi Hn. rewrite <- (leg_at_dim _ _ _ Hi). apply O. intros g Hg L2 X. apply (group_In g i Hg) in X as (k' & X). destruct (leg_at_fun _ _ _ _ _ Hi X) as (En & _).
    destruct (snd g) as [|x [|y [|z l]]] eqn:E2; simpl in L2; try discriminate. pose proof (group_sorted g Hg) as St. rewrite E2 in St. assert (x < y) as Lxy by (inversion St as [|? ? _ F]; subst; inversion F; auto).
    destruct (proj1 (group_In g x Hg)) as (a & Ha); [rewrite E2; simpl; auto|]. destruct (proj1 (group_In g y Hg)) as (b & Hb); [rewrite E2; simpl; auto|]. rewrite <- En in Ha, Hb.
    destruct (Nat.eq_dec x i) as [->|Nx]; [apply (Hn y b); auto; lia|exact (Hn x a Nx Ha)]. }
  assert (Cp : forall i j n a b, i <> j -> leg_at T i n a -> leg_at T j n b -> compatible a b).
  { intros i j n a b Nij Ha Hb. assert (Q : forall i j a b, i < j -> leg_at T i n a -> leg_at T j n b -> compatible a b).
    { intros i0 j0 a0 b0 L H1 H2. destruct a0 as [x|], b0 as [y|]; simpl; auto. destruct (Nat.eq_dec x y); auto. exfalso. apply NI. right. exists i0, j0, n, (Some x), (Some y). auto. }
    destruct (Nat.lt_ge_cases i j) as [L|L]; [exact (Q i j a b L Ha Hb)|]. assert (compatible b a) as X by (apply (Q j i); auto; lia). destruct a, b; simpl in *; auto. }
  assert (Jn2 : forall i j n a b, i <> j -> leg_at T i n a -> leg_at T j n b -> dimOf dims i = joinD a b).
  { intros i j n a b Nij Ha Hb. destruct (Nat.lt_ge_cases i j) as [L|L]; [apply (Jn i j n a b L Ha Hb)|]. assert (j < i) as L' by lia. rewrite (proj2 (Jn j i n b a L' Hb Ha)). pose proof (Cp i j n a b Nij Ha Hb) as C. destruct a, b; simpl in *; congruence. }
  assert (Ex : forall i n, {j : nat & {b | j <> i /\ leg_at T j n b}} + {forall j b, j <> i -> ~ leg_at T j n b}).
  { intros i n. destruct (filter (fun j => negb (Nat.eqb j i)) (positions n N 0)) as [|j l] eqn:F.
    - right. intros j b Nj H. assert (In j (filter (fun j => negb (Nat.eqb j i)) (positions n N 0))) as X; [|rewrite F in X; destruct X]. apply filter_In. split; [apply positions_In; rewrite Nat.sub_0_r, <- leg_at_N; split; [lia|eauto]|]. apply negb_true_iff, Nat.eqb_neq. exact Nj.
    - left. exists j. assert (In j (j :: l)) as X by (simpl; auto). rewrite <- F in X. apply filter_In in X as (X & Y). apply positions_In in X as (_ & X). rewrite Nat.sub_0_r in X. unfold N in X. rewrite nth_error_map in X.
      unfold leg_at. fold legs. destruct (nth_error legs j) as [[m b]|]; [|discriminate]. injection X as ->. exists b. split; auto. intros ->. now rewrite Nat.eqb_refl in Y. }
  constructor.
  - apply withDims_names.
  - apply withDims_labels. rewrite Len, map_length. reflexivity.
  - exact Pair.
  - assert (K : NoDup (flat_map snd G)) by exact G_disjoint. clear - K. induction G as [|g L IH]; cbn [flat_map] in *; [constructor|]. apply NoDup_app_intro.
    + unfold pair_of. destruct (snd g) as [|x [|y [|z l]]]; repeat constructor; auto.
    + apply IH. eapply NoDup_app_r; eauto.
    + intros [a b] H1 H2. apply in_flat_map in H2 as (g' & Hg & H2). unfold pair_of in H1, H2. destruct (snd g) as [|x [|y [|z l]]] eqn:E1; try contradiction. destruct (snd g') as [|x' [|y' [|z' l']]] eqn:E2; try contradiction.
      destruct H1 as [H1|[]]. destruct H2 as [H2|[]]. injection H1 as -> ->. injection H2 as -> ->. apply (NoDup_app_disj _ _ a K); [simpl; auto|]. apply in_flat_map. exists g'. rewrite E2. simpl; auto.
  - intros i n k H. apply At in H as ((k0 & H0) & D). destruct (Ex i n) as [(j & b & Nj & Hb)|Hn].
    + assert (D2 : dimOf dims i = joinD k0 b) by (apply (Jn2 i j n); auto). destruct k0 as [x|]; simpl in D2; [left; congruence|right]. split; auto. exists j. split; auto. congruence.
    + left. pose proof (Al i n k0 H0 Hn). congruence.
  - intros i n k H. apply At. split; [eauto|]. destruct (Ex i n) as [(j & b & Nj & Hb)|Hn]; [|exact (Al i n _ H Hn)]. assert (D2 : dimOf dims i = joinD (Some k) b) by (apply (Jn2 i j n); auto). exact D2.
  - intros i j n k Nij Hi Hj. apply At. split; [eauto|]. exact (Jn2 i j n None (Some k) Nij Hi Hj).
Qed.
End Reading.
