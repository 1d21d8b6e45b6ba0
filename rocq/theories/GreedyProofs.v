(** Contraction trees and sequences (C28); the greedy search (C29). *)
From Coq Require Import List Arith Bool Lia ZArith Permutation Relations Sorting.Sorted.
From Verif Require Import Base FuncsModel FuncsProofs NetSpec SearchModel BitProofs SearchSpec SearchBase BfProofs.
Import ListNotations.
Local Open Scope nat_scope.

Definition single (i : nat) : nat * list nat := (i, [i]).

Lemma complete_perm okp cost gs gs' sq c : Permutation gs' gs -> complete okp cost gs sq c -> complete okp cost gs' sq c.
Proof.
  intros P H. revert gs' P. induction H as [G|gs rest s t G1 G2 sq c N P OK C IH]; intros gs' P'.
  - apply Permutation_sym, Permutation_length_1_inv in P'. subst. constructor.
  - eapply complete_step; eauto. etransitivity; eauto.
Qed.
Lemma complete_length okp cost gs sq c : complete okp cost gs sq c -> List.length gs = S (List.length sq).
Proof.
  induction 1 as [G|gs rest s t G1 G2 sq c N P OK C IH]; auto. rewrite (Permutation_length P). simpl in *. lia.
Qed.

Section Trees.
Variable verts : list vres.
Variable dim : nat -> nat.
Variable typ : option nat.
Variable okp : list nat -> list nat -> Prop.
Notation join_cost := (join_cost verts dim typ).
Notation tree_cost := (tree_cost verts dim typ).
Fixpoint tree_ok (t : tree) : Prop :=
  match t with Leaf _ => True | Node a b => tree_ok a /\ tree_ok b /\ okp (leaves a) (leaves b) end.

Lemma tree_complete t : forall rest sq c, NoDup (leaves t) -> tree_ok t ->
  complete okp join_cost ((lowest (leaves t), leaves t) :: rest) sq c ->
  complete okp join_cost (map single (leaves t) ++ rest) (tseq t ++ sq) (tree_cost t + c).
Proof.
  induction t as [i|a IHa b IHb]; intros rest sq c ND OK C; [exact C|].
  cbn [leaves] in *. destruct OK as (OKa & OKb & OK). apply NoDup_app_inv in ND. destruct ND as (Na & Nb & D).
  cbn [tseq SearchSpec.tree_cost]. rewrite map_app, <- !app_assoc.
  replace (tree_cost a + tree_cost b + join_cost (leaves a) (leaves b) + c) with (tree_cost a + (tree_cost b + (join_cost (leaves a) (leaves b) + c))) by lia.
  apply IHa; auto. eapply complete_perm; [|apply (IHb ((lowest (leaves a), leaves a) :: rest)); auto].
  - apply Permutation_middle.
  - simpl app. eapply complete_step; [|apply perm_swap|exact OK|].
    + destruct (lowest_spec (leaves a) (leaves_nonempty a)) as (A & _). destruct (lowest_spec (leaves b) (leaves_nonempty b)) as (B & _).
      intros E. rewrite E in A. now apply (D _ A).
    + rewrite <- lowest_app by apply leaves_nonempty. exact C.
Qed.
Lemma tree_sequence t : spans verts t -> tree_ok t -> complete okp join_cost (map single (vertices verts)) (tseq t) (tree_cost t) .
Proof.
  intros S OK. assert (ND : NoDup (leaves t)) by (eapply Permutation_NoDup; [apply Permutation_sym, S|apply seq_NoDup]).
  assert (L0 : lowest (leaves t) = 0).
  { apply lowest_uniq; [|lia]. apply (Permutation_in _ (Permutation_sym S)). apply in_seq.
    pose proof (Permutation_length S) as E. unfold vertices in E. rewrite seq_length in E. pose proof (leaves_nonempty t). destruct (leaves t); [congruence|simpl in E; lia]. }
  pose proof (tree_complete t [] [] 0 ND OK) as H. rewrite L0, !app_nil_r, Nat.add_0_r in H.
  eapply complete_perm; [apply Permutation_map, Permutation_sym, S|]. apply H. constructor.
Qed.
End Trees.

(** ** joining groups along an edge *)
Section Groups.
Variable verts : list vres.
Variable dim : nat -> nat.
Hypothesis WG : wf_graph verts dim.
Notation grp := (grp verts).
Notation flat := (flat verts dim).
Notation common := (common verts).
Notation bnd := (bnd verts).
Notation cnt := (cnt verts).
Lemma flat_join G1 G2 : grp (G1 ++ G2) -> common G1 G2 <> [] -> flat G1 -> flat G2 -> flat (G1 ++ G2).
Proof.
  intros GG C F1 F2 DG. rewrite all_dg_app in DG. apply andb_true_iff in DG. destruct DG as (D1 & D2).
  destruct (common G1 G2) as [|e0 l] eqn:EC; [congruence|]. assert (In e0 (common G1 G2)) as H0 by (rewrite EC; simpl; auto).
  apply common_In in H0. destruct H0 as (H1 & H2). apply bnd_In in H1, H2.
  assert (ALL : forall e, In e (bnd (G1 ++ G2)) -> dim e = dim e0).
  { intros e He. apply (bnd_app verts dim WG G1 G2 e GG) in He. destruct He as [(He & _)|(He & _)]; [now apply F1|now apply F2]. }
  intros e e' He He'. now rewrite (ALL e He), (ALL e' He').
Qed.
Lemma flat_single i : In i (vertices verts) -> flat [i].
Proof.
  intros Hi DG e e' He He'. simpl in DG. rewrite andb_true_r in DG. apply (wg_diag _ _ WG i); auto.
  - apply bnd_In in He. unfold SearchBase.cnt in He. simpl in He. rewrite app_nil_r in He. apply (count_occ_In Nat.eq_dec). lia.
  - apply bnd_In in He'. unfold SearchBase.cnt in He'. simpl in He'. rewrite app_nil_r in He'. apply (count_occ_In Nat.eq_dec). lia.
Qed.
Definition conn (G : list nat) : Prop := forall i j, In i G -> In j G -> clos_refl_trans nat (adjacent verts) i j.
Lemma cnt_pos G e : cnt G e > 0 <-> exists i, In i G /\ In e (vedges verts i).
Proof. unfold SearchBase.cnt. rewrite <- (count_occ_In Nat.eq_dec), in_flat_map. reflexivity. Qed.
Lemma adjacent_sym i j : adjacent verts i j -> adjacent verts j i.
Proof. intros (H1 & H2 & e & H3 & H4). split; auto. split; auto. exists e. auto. Qed.
Lemma adj_sym i j : clos_refl_trans nat (adjacent verts) i j -> clos_refl_trans nat (adjacent verts) j i.
Proof.
  induction 1; [apply rt_step; now apply adjacent_sym|apply rt_refl|eapply rt_trans; eauto].
Qed.
Lemma conn_join G1 G2 : incl G1 (vertices verts) -> incl G2 (vertices verts) -> common G1 G2 <> [] -> conn G1 -> conn G2 -> conn (G1 ++ G2).
Proof.
  intros I1 I2 C F1 F2. destruct (common G1 G2) as [|e0 l] eqn:EC; [congruence|]. assert (In e0 (common G1 G2)) as H0 by (rewrite EC; simpl; auto).
  apply common_In in H0. destruct H0 as (H1 & H2).
  destruct (proj1 (cnt_pos G1 e0) ltac:(lia)) as (a & Ha & Ea). destruct (proj1 (cnt_pos G2 e0) ltac:(lia)) as (b & Hb & Eb).
  assert (AB : clos_refl_trans nat (adjacent verts) a b) by (apply rt_step; split; [auto|split; [auto|exists e0; auto]]).
  intros i j Hi Hj. apply in_app_iff in Hi, Hj. destruct Hi as [Hi|Hi], Hj as [Hj|Hj].
  - now apply F1.
  - eapply rt_trans; [apply (F1 i a); auto|]. eapply rt_trans; [exact AB|]. now apply F2.
  - eapply rt_trans; [apply (F2 i b); auto|]. eapply rt_trans; [apply adj_sym, AB|]. now apply F1.
  - now apply F2.
Qed.
Lemma adj_common G1 G2 a b : grp (G1 ++ G2) -> In a G1 -> In b G2 -> adjacent verts a b -> common G1 G2 <> [].
Proof.
  intros GG Ha Hb (_ & _ & e & Ea & Eb) E. assert (In e (common G1 G2)); [|rewrite E in *; auto].
  pose proof (cnt_le2 verts dim WG _ e GG) as L. rewrite cnt_app in L.
  pose proof (proj2 (cnt_pos G1 e) ltac:(exists a; auto)). pose proof (proj2 (cnt_pos G2 e) ltac:(exists b; auto)).
  apply common_In. lia.
Qed.
End Groups.

(** ** the greedy search *)
Lemma pairIterator_In (l : list nat) a b : In (a, b) (pairIterator l) <-> exists l1 l2 l3, l = l1 ++ a :: l2 ++ b :: l3.
Proof.
  induction l as [|x l IH]; simpl.
  - split; [tauto|]. intros ([|? ?] & ? & ? & E); discriminate.
  - rewrite in_app_iff, in_map_iff, IH. split.
    + intros [(y & E & Hy)|(l1 & l2 & l3 & ->)].
      * injection E as -> ->. apply in_split in Hy. destruct Hy as (l2 & l3 & ->). exists [], l2, l3. auto.
      * exists (x :: l1), l2, l3. auto.
    + intros ([|y l1] & l2 & l3 & E); simpl in E; injection E as -> ->.
      * left. exists b. split; auto. apply in_app_iff. simpl. auto.
      * right. eauto.
Qed.
Lemma remove_one_mid (l1 l2 : list nat) b : ~ In b l1 -> remove_one b (l1 ++ b :: l2) = Some (l1 ++ l2).
Proof.
  induction l1 as [|x l1 IH]; intros N; simpl.
  - destruct (dec b b); congruence.
  - destruct (dec b x) as [->|]; [exfalso; apply N; simpl; auto|]. rewrite IH by (intros H; apply N; simpl; auto). reflexivity.
Qed.
Lemma greedyPair_spec symdiff cr ps : match greedyPair symdiff cr ps with
  | Some (_, a, b) => In (a, b) ps /\ isSharingBond (cr a) (cr b) = true
  | None => forall a b, In (a, b) ps -> isSharingBond (cr a) (cr b) = false
  end.
Proof.
  unfold greedyPair.
  set (f := fun best '(a, b) => if isSharingBond (cr a) (cr b) then _ else best).
  assert (G : forall ps' best dn, (match best with
      | Some (_, a, b) => In (a, b) dn /\ isSharingBond (cr a) (cr b) = true
      | None => forall a b, In (a, b) dn -> isSharingBond (cr a) (cr b) = false end) ->
    match fold_left f ps' best with
      | Some (_, a, b) => In (a, b) (dn ++ ps') /\ isSharingBond (cr a) (cr b) = true
      | None => forall a b, In (a, b) (dn ++ ps') -> isSharingBond (cr a) (cr b) = false end).
  { induction ps' as [|[a b] ps' IH]; intros best dn H; cbn [fold_left]; [now rewrite app_nil_r|].
    replace (dn ++ (a, b) :: ps') with ((dn ++ [(a, b)]) ++ ps') by now rewrite <- app_assoc.
    apply IH. unfold f. destruct (isSharingBond (cr a) (cr b)) eqn:E.
    - destruct best as [[[m a0] b0]|].
      + destruct (_ <? m); [split; auto; apply in_app_iff; simpl; auto|]. destruct H. split; auto. apply in_app_iff; auto.
      + split; auto. apply in_app_iff; simpl; auto.
    - destruct best as [[[m a0] b0]|].
      + destruct H. split; auto. apply in_app_iff; auto.
      + intros p q Hp. apply in_app_iff in Hp. destruct Hp as [Hp|[Hp|[]]]; auto. now injection Hp as <- <-. }
  apply (G ps None []). intros a b [].
Qed.

Section Greedy.
Variable symdiff : list nat -> list nat -> list nat.
Hypothesis SD : symdiff_ok symdiff.
Variable verts : list vres.
Variable dim : nat -> nat.
Hypothesis WG : wf_graph verts dim.
Notation n := (List.length verts).
Notation cost := (join_cost verts dim None).

Record ginv (live : list nat) (G : nat -> list nat) (cr : nat -> vres) : Prop := {
  g_sort : StronglySorted lt live;
  g_zero : In 0 live;
  g_last : forall i, In i live -> i < n;
  g_cr : cr (n - 1) = vert verts (n - 1);
  g_part : Permutation (flat_map G live) (vertices verts);
  g_rep : forall i, In i live -> rep verts dim (cr i) (G i);
  g_flat : forall i, In i live -> flat verts dim (G i);
  g_conn : forall i, In i live -> conn verts (G i);
  g_ne : forall i, In i live -> G i <> [] }.
Lemma sorted_NoDup (l : list nat) : StronglySorted lt l -> NoDup l.
Proof. induction 1 as [|x l H IH F]; constructor; auto. rewrite Forall_forall in F. intros Hi. specialize (F _ Hi). lia. Qed.
Lemma sorted_mid (l1 l2 l3 : list nat) a b : StronglySorted lt (l1 ++ a :: l2 ++ b :: l3) -> a < b /\ StronglySorted lt (l1 ++ a :: l2 ++ l3).
Proof.
  induction l1 as [|x l1 IH]; simpl; intros H; inversion H as [|? ? H1 F]; subst.
  - rewrite Forall_forall in F. split; [apply F; apply in_app_iff; simpl; auto|].
    constructor.
    + clear F H. induction l2 as [|y l2 IH]; simpl in *; inversion H1 as [|? ? H2 F2]; subst; auto. constructor; [now apply IH|].
      rewrite Forall_forall in *. intros z Hz. apply F2. rewrite in_app_iff in *. simpl. tauto.
    + apply Forall_forall. intros z Hz. apply F. rewrite in_app_iff in *. simpl. tauto.
  - destruct (IH H1) as (L & S1). split; auto. constructor; auto. rewrite Forall_forall in *. intros z Hz. apply F.
    rewrite !in_app_iff in *. simpl in *. rewrite !in_app_iff in *. simpl. tauto.
Qed.
Lemma parts_perm (G : nat -> list nat) l l' : Permutation l l' -> Permutation (flat_map G l) (flat_map G l').
Proof. apply Permutation_flat_map. Qed.

Definition share (G1 G2 : list nat) : Prop := common verts G1 G2 <> [].
Definition greedy_err : exn := if vdiag verts (n - 1) && match vshape verts (n - 1) with [] => true | _ => false end then IndexError else ValueError.

Lemma greedy_ok f : forall live G cr sq c, List.length live <= S f -> ginv live G cr ->
  (exists sq' c', greedyLoop symdiff verts f live cr sq c = Ok (sq ++ sq', c + c') /\
     complete share cost (map (fun i => (i, G i)) live) sq' c' /\ Forall (fun '(a, b) => a < b) sq' /\ connected verts) \/
  (greedyLoop symdiff verts f live cr sq c = Err greedy_err /\ ~ connected verts).
Proof.
  induction f as [|f IH]; intros live G cr sq c HL I.
  - left. assert (live = [0]) as ->.
    { pose proof (g_zero _ _ _ I) as Z. destruct live as [|x [|y l]]; simpl in *; [tauto|destruct Z as [->|[]]; auto|lia]. }
    exists [], 0. rewrite app_nil_r, Nat.add_0_r. split; auto. split; [constructor|]. split; auto.
    pose proof (g_part _ _ _ I) as P. simpl in P. rewrite app_nil_r in P. pose proof (g_conn _ _ _ I 0 (or_introl eq_refl)) as CC.
    intros i j Hi Hj. apply CC; apply (Permutation_in _ (Permutation_sym P)); auto.
  - cbn [greedyLoop]. destruct (Nat.leb_spec (List.length live) 1) as [L|L].
    + left. assert (live = [0]) as ->.
      { pose proof (g_zero _ _ _ I) as Z. destruct live as [|x [|y l]]; simpl in *; [tauto|destruct Z as [->|[]]; auto|lia]. }
      exists [], 0. rewrite app_nil_r, Nat.add_0_r. split; auto. split; [constructor|]. split; auto.
      pose proof (g_part _ _ _ I) as P. simpl in P. rewrite app_nil_r in P. pose proof (g_conn _ _ _ I 0 (or_introl eq_refl)) as CC.
      intros i j Hi Hj. apply CC; apply (Permutation_in _ (Permutation_sym P)); auto.
    + assert (ND : NoDup live) by apply sorted_NoDup, I.
      assert (GV : grp verts (flat_map G live)).
      { eapply grp_perm; [apply Permutation_sym, I|]. split; [apply seq_NoDup|apply incl_refl]. }
      assert (G2 : forall a b r, Permutation live (a :: b :: r) -> grp verts (G a ++ G b)).
      { intros a b r P. eapply grp_perm in GV; [|apply parts_perm, P]. simpl in GV. rewrite app_assoc in GV. now apply grp_app in GV. }
      pose proof (greedyPair_spec symdiff cr (pairIterator live)) as SP. destruct (greedyPair symdiff cr (pairIterator live)) as [[[m a] b]|].
      * destruct SP as (Hab & SH). apply pairIterator_In in Hab. destruct Hab as (l1 & l2 & l3 & EL).
        assert (Ha : In a live) by (rewrite EL; apply in_app_iff; simpl; auto).
        assert (Hb : In b live) by (rewrite EL, in_app_iff; simpl; rewrite in_app_iff; simpl; auto).
        assert (P1 : Permutation live (a :: b :: l1 ++ l2 ++ l3)).
        { rewrite EL. rewrite <- Permutation_middle. constructor. rewrite app_assoc, <- Permutation_middle, <- app_assoc. reflexivity. }
        assert (S1 := g_sort _ _ _ I). rewrite EL in S1. destruct (sorted_mid _ _ _ _ _ S1) as (LT & S2).
        assert (GG := G2 _ _ _ P1).
        assert (CO : common verts (G a) (G b) <> []) by (apply (sharing_spec verts dim (cr a) (cr b)); auto; apply I; auto).
        assert (EC : getCost (cr a) (cr b) = Ok (cost (G a) (G b))).
        { apply (cost_rep verts dim None WG); try (apply I; auto; fail); auto; [intros _; now apply I|]. intros _ _ _ E. destruct (common verts (G a) (G b)) as [|e0 l] eqn:EE; [congruence|].
          assert (In e0 (common verts (G a) (G b))) as H0 by (rewrite EE; simpl; auto). apply common_In in H0. destruct H0 as (H0 & _). apply bnd_In in H0. rewrite E in H0. destruct H0. }
        rewrite EC. cbn [rbind].
        assert (ER : remove_one b live = Some (l1 ++ a :: l2 ++ l3)).
        { rewrite EL. replace (l1 ++ a :: l2 ++ b :: l3) with ((l1 ++ a :: l2) ++ b :: l3) by now rewrite <- app_assoc.
          rewrite remove_one_mid; [now rewrite <- app_assoc|]. intros H. rewrite EL in ND. replace (l1 ++ a :: l2 ++ b :: l3) with ((l1 ++ a :: l2) ++ b :: l3) in ND by now rewrite <- app_assoc.
          apply NoDup_app_inv in ND. destruct ND as (_ & _ & D). apply (D b H). simpl. auto. }
        rewrite ER. cbn [rbind]. set (live' := l1 ++ a :: l2 ++ l3) in *.
        assert (P2 : Permutation live' (a :: l1 ++ l2 ++ l3)) by (symmetry; apply Permutation_middle).
        assert (IN : forall i, In i live' -> In i live).
        { intros i Hi. apply (Permutation_in _ P2) in Hi. apply (Permutation_in _ (Permutation_sym P1)). simpl in *. tauto. }
        set (G' := upd G a (G a ++ G b)).
        assert (NA : forall i, In i (l1 ++ l2 ++ l3) -> i <> a).
        { intros i Hi ->. apply (Permutation_NoDup P1) in ND. inversion ND as [|? ? NI _]; subst. apply NI. simpl. auto. }
        assert (GE : flat_map G' (l1 ++ l2 ++ l3) = flat_map G (l1 ++ l2 ++ l3)).
        { rewrite !flat_map_concat_map. f_equal. apply map_ext_in. intros i Hi. unfold G'. rewrite upd_other; auto; first [now apply NA|now apply not_eq_sym, NA]. }
        assert (I' : ginv live' G' (upd cr a (calculateContractRes symdiff (cr a) (cr b)))).
        { apply Build_ginv; auto.
          - apply (Permutation_in _ (Permutation_sym P2)). pose proof (Permutation_in _ P1 (g_zero _ _ _ I)) as Z. simpl in *. destruct Z as [Z|[Z|Z]]; auto. lia.
          - intros i Hi. apply (g_last _ _ _ I). auto.
          - pose proof (g_last _ _ _ I b Hb). rewrite upd_other by lia. apply I.
          - rewrite (parts_perm G' _ _ P2). simpl. rewrite GE. unfold G'. rewrite upd_same. rewrite <- (g_part _ _ _ I). rewrite (parts_perm G _ _ P1). cbn [flat_map]. now rewrite <- app_assoc.
          - intros i Hi. unfold G'. destruct (Nat.eq_dec i a) as [->|NE]; [rewrite !upd_same; apply calc_rep; auto; apply I; auto|rewrite !upd_other by auto; apply I; auto].
          - intros i Hi. unfold G'. destruct (Nat.eq_dec i a) as [->|NE]; [rewrite !upd_same; apply flat_join; auto; apply I; auto|rewrite !upd_other by auto; apply I; auto].
          - intros i Hi. unfold G'. destruct (Nat.eq_dec i a) as [->|NE]; [rewrite !upd_same; apply (conn_join verts); auto; try (apply I; auto); apply grp_app in GG; apply GG|rewrite !upd_other by auto; apply I; auto].
          - intros i Hi. unfold G'. destruct (Nat.eq_dec i a) as [->|NE]; [rewrite !upd_same|rewrite !upd_other by auto; apply I; auto].
            intros E. apply app_eq_nil in E. destruct E as (E & _). revert E. now apply I. }
        assert (HL' : List.length live' <= S f). { rewrite (Permutation_length P1) in HL. rewrite (Permutation_length P2). simpl in *. lia. }
        destruct (IH live' G' _ (sq ++ [(a, b)]) (c + cost (G a) (G b)) HL' I') as [(sq' & c' & E & CM & LT' & CN)|E]; [left|right; exact E].
        exists ((a, b) :: sq'), (cost (G a) (G b) + c'). split; [rewrite E; f_equal; f_equal; [now rewrite <- app_assoc|lia]|]. split; [|split; auto].
        eapply (complete_step share cost _ (map (fun i => (i, G i)) (l1 ++ l2 ++ l3)) a b (G a) (G b)); [lia| |exact CO|].
        -- rewrite P1. reflexivity.
        -- rewrite Nat.min_l by lia. eapply complete_perm; [|exact CM]. rewrite P2. cbn [map]. unfold G' at 1. rewrite upd_same.
           constructor. erewrite map_ext_in; [reflexivity|]. intros i Hi. unfold G'. rewrite upd_other; auto; first [now apply NA|now apply not_eq_sym, NA].
      * right. split.
        -- change (SearchModel.n verts) with n. rewrite (g_cr _ _ _ I). unfold greedy_err, getCost, vdiag, vshape, r_diag, r_shape. destruct (snd (vert verts (n - 1))); simpl andb; cbn [rbind].
           ++ destruct (snd (fst (vert verts (n - 1)))); reflexivity.
           ++ destruct (fold_left _ _ _). reflexivity.
        -- intros CN.
           assert (NS : forall a b r, Permutation live (a :: b :: r) -> common verts (G a) (G b) = []).
           { intros a b r P. assert (In (a, b) (pairIterator live) \/ In (b, a) (pairIterator live)) as H.
             { assert (Ha : In a live) by (apply (Permutation_in _ (Permutation_sym P)); simpl; auto). apply in_split in Ha. destruct Ha as (l1 & l2 & ->).
               rewrite <- Permutation_middle in P. apply Permutation_cons_inv in P. assert (Hb : In b (l1 ++ l2)) by (apply (Permutation_in _ (Permutation_sym P)); simpl; auto).
               apply in_app_iff in Hb. destruct Hb as [Hb|Hb]; apply in_split in Hb; destruct Hb as (l3 & l4 & ->); [right|left]; apply pairIterator_In.
               - exists l3, l4, l2. now rewrite <- app_assoc. - exists l1, l3, l4. reflexivity. }
             assert (Ha : In a live) by (apply (Permutation_in _ (Permutation_sym P)); simpl; auto). assert (Hb : In b live) by (apply (Permutation_in _ (Permutation_sym P)); simpl; auto).
             destruct H as [H|H]; apply SP in H.
             - destruct (common verts (G a) (G b)) eqn:E; auto. assert (common verts (G a) (G b) <> []) as NE by congruence.
               apply (sharing_spec verts dim (cr a) (cr b)) in NE; [congruence|now apply I|now apply I].
             - pose proof (common_sym verts (G a) (G b)) as CS. destruct (common verts (G b) (G a)) eqn:E; [now apply Permutation_sym, Permutation_nil in CS|].
               assert (common verts (G b) (G a) <> []) as NE by congruence.
               apply (sharing_spec verts dim (cr b) (cr a)) in NE; [congruence|now apply I|now apply I]. }
           (* every group is closed under adjacency *)
           destruct live as [|a [|b r]]; [simpl in L; lia|simpl in L; lia|].
           assert (NA := g_ne _ _ _ I a ltac:(simpl; auto)). assert (NB := g_ne _ _ _ I b ltac:(simpl; auto)).
           destruct (G a) as [|u ga] eqn:EA; [congruence|]. destruct (G b) as [|v gb] eqn:EB; [congruence|].
           assert (Ua : In u (G a)) by (rewrite EA; simpl; auto). assert (Vb : In v (G b)) by (rewrite EB; simpl; auto).
           pose proof (g_part _ _ _ I) as PT.
           assert (CL : forall x y, clos_refl_trans nat (adjacent verts) x y -> In x (G a) -> In y (G a)).
           { intros x y H. apply clos_rt_rt1n in H. induction H as [|x y z AD _ IHc]; auto. intros Hx. apply IHc.
             destruct AD as (Vx & Vy & e & Ex & Ey). assert (In y (flat_map G (a :: b :: r))) as Fy by (apply (Permutation_in _ (Permutation_sym PT)); auto).
             apply in_flat_map in Fy. destruct Fy as (k & Hk & Hy). destruct (Nat.eq_dec k a) as [->|NK]; auto. exfalso.
             destruct Hk as [Hk|Hk]; [congruence|]. apply in_split in Hk. destruct Hk as (p & q & EK).
             assert (PP : Permutation (a :: b :: r) (a :: k :: p ++ q)) by (constructor; rewrite EK; symmetry; apply Permutation_middle).
             apply (adj_common verts dim WG (G a) (G k) x y); eauto. split; auto. split; auto. exists e. auto. }
           assert (VU : In u (vertices verts)) by (apply (Permutation_in _ PT); simpl; apply in_app_iff; auto).
           assert (VV : In v (vertices verts)) by (apply (Permutation_in _ PT); simpl; rewrite !in_app_iff; auto).
           pose proof (CL u v (CN u v VU VV) Ua) as Va. destruct (G2 a b r (Permutation_refl _)) as (NDG & _). apply NoDup_app_inv in NDG.
           destruct NDG as (_ & _ & D). exact (D v Va Vb).
Qed.

Lemma greedySearch_ok : 0 < n ->
  (exists sq c, greedySearch symdiff verts = Ok (sq, c) /\
     complete share cost (map single (vertices verts)) sq c /\ Forall (fun '(a, b) => a < b) sq /\ connected verts) \/
  (greedySearch symdiff verts = Err greedy_err /\ ~ connected verts).
Proof.
  intros Hn. unfold greedySearch. change (SearchModel.n verts) with n. fold (vert verts).
  destruct (greedy_ok n (seq 0 n) (fun i => [i]) (vert verts) [] 0) as [(sq & c & H)|H].
  - rewrite seq_length. lia.
  - apply Build_ginv; try (intros i Hi; apply in_seq in Hi); auto.
    + generalize n 0. clear. induction n as [|k IH]; intros s; simpl; constructor; auto. apply Forall_forall. intros x Hx. apply in_seq in Hx. lia.
    + apply in_seq. lia.
    + lia.
    + assert (forall l : list nat, flat_map (fun i => [i]) l = l) as -> by (induction l; simpl; congruence). reflexivity.
    + apply rep_vert; auto. apply in_seq. lia.
    + apply flat_single; auto. apply in_seq. lia.
    + intros x y [<-|[]] [<-|[]]. apply rt_refl.
    + discriminate.
  - left. exists sq, c. exact H.
  - right. exact H.
Qed.
End Greedy.
