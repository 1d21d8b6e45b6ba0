(** Names during SchimdtDecomposition (examples/Schimdt.py): tags, swapped labels and their removal. *)
From Coq Require Import List Arith Bool Lia String Ascii ZArith Permutation.
From Verif Require Import Base Sums NdModel HeapModel FuncsModel FuncsProofs TensorModel TensorSpec TensorProofs LabelProofs MatrixProofs
  ContractModel NetSpec FtnNetSpec ShareProofs SvdModel.
Import ListNotations.
Local Open Scope list_scope.
Local Open Scope nat_scope.

Section Tg.
Context {A : Type} {HA : SR A}.
Notation heap := (heap A).

Lemma dash_none s : after_dash s = None <-> findDash s = None.
Proof.
  induction s as [|c s IH]; simpl; [tauto|]. destruct (Ascii.eqb c "-"); [split; discriminate|].
  rewrite IH. destruct (findDash s); simpl; split; congruence.
Qed.

Section Swap.
Variables (p q : string) (n : lid -> string).
Hypothesis Pinj : forall s s', (p ++ s)%string = (p ++ s')%string -> s = s'.
Hypothesis PQ : forall s s', (p ++ s)%string <> (q ++ s')%string.

Lemma swap_names t sw : forall (h : heap) (d : lid -> bool), NoDup (legs_of h t) ->
  (forall l, In l (legs_of h t) -> l_name (legs h l) = NStr ((if d l then q else p) ++ n l)) ->
  (forall l l', In l (legs_of h t) -> In l' (legs_of h t) -> n l = n l' -> l = l') ->
  exists h', iterM (fun s => renameLabel t (NStr (p ++ s)) (NStr (q ++ s))) sw h = (h', Ok tt) /\
    only_names h h' (legs_of h t) (fun l => NStr ((if d l || existsb (String.eqb (n l)) sw then q else p) ++ n l)).
Proof.
  induction sw as [|s sw IH]; intros h d ND HN HI; cbn [iterM].
  - exists h. split; auto. constructor; auto. intros l Hl. cbn [existsb]. rewrite orb_false_r, <- HN by auto. now destruct (legs h l).
  - destruct (renameLabel_ok h t (NStr (p ++ s)) (NStr (q ++ s)) ND) as (h1 & L & E & ON & HL & IN & _).
    unfold bind at 1. rewrite E. pose proof (getLeg_first h t (NStr (p ++ s))) as GF.
    assert (EL : legs_of h1 t = legs_of h t) by (eapply only_names_legs; eauto).
    set (d1 := fun l => d l || String.eqb (n l) s).
    destruct (IH h1 d1) as (h2 & E2 & O2).
    + now rewrite EL.
    + rewrite EL. intros l Hl. unfold d1. destruct (getLeg h t (NStr (p ++ s)) false) as [l0|].
      * subst L. destruct GF as (u & v & EU & NM & _). assert (In l0 (legs_of h t)) as H0 by (rewrite EU; apply in_app_iff; simpl; auto).
        rewrite HN in NM by auto. injection NM as NM. 
        assert (d l0 = false) as D0. { destruct (d l0); auto. exfalso. apply (PQ s (n l0)). auto. }
        rewrite D0 in NM. apply Pinj in NM. destruct (Nat.eq_dec l l0) as [->|Ne].
        -- rewrite (on_in _ _ _ _ ON) by (simpl; auto). cbn. rewrite NM, String.eqb_refl, orb_true_r. reflexivity.
        -- rewrite (on_out _ _ _ _ ON) by (simpl; intuition). rewrite HN by auto. destruct (String.eqb_spec (n l) s) as [Es|_].
           ++ exfalso. apply Ne. apply HI; auto. congruence.
           ++ now rewrite orb_false_r.
      * subst L. rewrite (on_out _ _ _ _ ON) by (simpl; auto). rewrite HN by auto. destruct (String.eqb_spec (n l) s) as [Es|_].
        -- destruct (d l) eqn:Dl; [reflexivity|]. exfalso. apply GF. unfold names_of. apply in_map_iff. exists l. split; auto.
           rewrite HN, Dl by auto. now rewrite Es.
        -- now rewrite orb_false_r.
    + rewrite EL. auto.
    + exists h2. split; auto. rewrite EL in O2. eapply only_names_ext; [exact (only_names_trans _ _ _ _ _ _ _ ON O2)| |].
      * intros l. rewrite in_app_iff. split; [intros [Hl|Hl]; auto|auto].
      * intros l Hl. cbv beta. assert (inb l (legs_of h t) = true) as ->.
        { apply inb_spec. apply in_app_iff in Hl. destruct Hl; auto. }
        unfold d1. cbn [existsb]. now rewrite orb_assoc.
Qed.
End Swap.

Definition letter (b : bool) : string := if b then "a-" else "b-".

Lemma legsWith_ok (h : heap) (b : bool) (g : lid -> bool) (n : lid -> string) L :
  (forall l, In l L -> l_name (legs h l) = NStr (letter (g l) ++ n l)) ->
  legsWith h (letter b) L = Ok (filter (fun l => Bool.eqb (g l) b) L).
Proof.
  induction L as [|l L IH]; intros HN; auto. cbn [legsWith filter]. unfold legname. rewrite HN by (simpl; auto). cbn [startsWith rbind].
  rewrite IH by (intros; apply HN; simpl; auto). cbn [rbind].
  assert (prefix (letter b) (letter (g l) ++ n l) = Bool.eqb (g l) b) as ->; [|destruct (Bool.eqb (g l) b); reflexivity].
  destruct b, (g l); cbn; destruct (n l); reflexivity.
Qed.

Definition dropStep (pre : string) (m : pname) : res pname :=
  match m with NStr s => Ok (NStr (if prefix pre s then dropChars 2 s else s)) | _ => Err AttributeError end.
Lemma dropTag_spec pre (h : heap) l :
  match dropStep pre (l_name (legs h l)) with
  | Ok m => exists h1, dropTag pre l h = (h1, Ok tt) /\ only_names h h1 [l] (fun _ => m)
  | Err e => dropTag pre l h = (h, Err e)
  end.
Proof.
  unfold dropTag, dropStep, bind, reads, legname. destruct (l_name (legs h l)) eqn:En; try reflexivity.
  destruct (prefix pre s).
  - eexists. split; [reflexivity|]. apply only_names_set.
  - exists h. split; [reflexivity|]. constructor; auto. intros l' [<-|[]]. rewrite <- En. now destruct (legs h l).
Qed.
Lemma dropTags_ok (h : heap) b (n : lid -> string) L : NoDup L -> (forall l, In l L -> l_name (legs h l) = NStr (letter b ++ n l)) ->
  exists h', iterM (dropTag (letter b)) L h = (h', Ok tt) /\ only_names h h' L (fun l => NStr (n l)).
Proof.
  intros ND HN. destruct (loop_ok (dropStep (letter b)) (dropTag (letter b)) (dropTag_spec (letter b)) L h ND) as (h' & E & O).
  { intros l Hl. rewrite HN by auto. simpl. eauto. }
  exists h'. split; auto. eapply only_names_ext; [exact O|tauto|]. intros l Hl. unfold stepped. rewrite HN by auto. cbn [dropStep].
  f_equal. destruct b; cbn; destruct (n l); reflexivity.
Qed.

Lemma first_named_inj (h : heap) t l : NoDup (legs_of h t) -> In l (legs_of h t) ->
  (forall l', In l' (legs_of h t) -> l_name (legs h l') = l_name (legs h l) -> l' = l) -> first_named h t (l_name (legs h l)) l.
Proof.
  intros ND Hl HI. apply in_split in Hl. destruct Hl as (u & v & E). exists u, v. split; auto. split; auto. intros l' Hl' EN.
  assert (l' = l) by (apply HI; auto; rewrite E; apply in_app_iff; auto). subst. rewrite E in ND. apply NoDup_remove_2 in ND. apply ND.
  apply in_app_iff; auto.
Qed.
End Tg.
