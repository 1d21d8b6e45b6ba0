(** Impurity tensor networks: one step. *)
From Coq Require Import List Arith Bool String Lia Ring Permutation ZArith.
From Verif Require Import Base Sums FuncsModel FuncsSpec NdModel HeapModel TensorModel TensorSpec ContractModel SvdModel FtnModel NetSpec NamedSpec NetsModel NetsSpec SearchSpec TorusSpec DoubleSpec TrgModel TrgSpec HotrgModel HotrgSpec MomentSpec ImpurityModel ImpuritySpec
  NdProofs TensorProofs NetsProofs FuncsProofs LabelProofs NamedProofs NamedMatProofs TorusProofs TrgProofs HotrgProofs HotrgRunProofs MomentProofs MomentStepProofs HotrgSpec.
Import ListNotations.
Local Open Scope nat_scope.
Local Open Scope string_scope.
Local Open Scope list_scope.

Section Im.
Context {A B : Type} {HA : SR A}.
Add Ring Aring : (@SR_theory A HA).
Notation heap := (heap A).
Notation world := (world A).
Notation hotrg := (hotrg A).
Notation impurityTN := (impurityTN A).
Notation fun4 := (nat -> nat -> nat -> nat -> A).
Variable num : numerics A B.
Variable half : A.
Variable symdiff : list nat -> list nat -> list nat.
Hypothesis SD : symdiff_ok symdiff.
Variable fuel : nat.

(** ** Dividing all tensors *)
Definition with_norm (n : A) : numerics A B := mkNum (nu_lib num) (nu_conj num) (fun _ => n) (nu_div num) (nu_log num) (nu_zero num) (nu_plus num) (nu_share num).
Lemma divideBy_ok (h : heap) n t df V H : square h t V H -> exists h', divideBy num n (Some (t, df)) h = (h', Ok tt) /\ square h' t V H /\
  (forall t', t' <> t -> tens h' t' = tens h t') /\ legs h' = legs h /\ nleg h' = nleg h /\ ntens h' = ntens h /\
  forall u l d r, u < V -> l < H -> d < V -> r < H -> entry4 h' t u l d r = nu_div num (entry4 h t u l d r) n.
Proof.
  intros Q. assert (NDm : NoDup (map fst [("u", V); ("l", H); ("d", V); ("r", H)])) by now apply nodupb_ok.
  destruct (divide_ok (with_norm n) h t _ Q NDm) as (h' & n' & E & NZ & Q' & KT & KL & KN & KM & EV).
  assert (En : n' = n) by (destruct NZ as (sh & d & En & _); exact En). subst n'.
  exists h'. split.
  - destruct Q as ((WF & NL & ND) & _). unfold divideByNorm in E. unfold bind at 1, reads at 1 in E. rewrite NL in E. cbn [negb] in E. unfold assert, bind at 1, ret at 1 in E.
    unfold divideBy, bind at 1, reads at 1. destruct (t_arr (tens h t)) as [a|]; [|discriminate E]. unfold bind at 1 in E. cbn [with_norm nu_norm nu_div] in E.
    destruct (setArr t _ h) as (h1 & [x|e]) eqn:E1; unfold setArr, modify in E1; [injection E1 as <- <-|discriminate E1]. unfold ret in E. injection E as <-. reflexivity.
  - split; [exact Q'|]. repeat (split; [assumption|]). intros u l d r Hu Hl Hd Hr. apply (EV [u; l; d; r]). repeat (constructor; [assumption|]). constructor.
Qed.
Definition tids (l : list (option (tid * option nat))) : list tid := flat_map (fun x => match x with Some p => [fst p] | None => [] end) l.
Definition full (h : heap) V H (l : list (option (tid * option nat))) : Prop := forall x, In x l -> exists t df, x = Some (t, df) /\ square h t V H.
Lemma same_tensor (h h' : heap) t m : dense_legs h t m -> tens h' t = tens h t -> legs h' = legs h -> nleg h' = nleg h -> ntens h' = ntens h -> dense_legs h' t m /\ forall g, at_ h' t g = at_ h t g.
Proof.
  intros ((WF & L & D) & HL) Et El En Em. destruct WF as [i nd al da dg]. split; [split; [split; [split|]|]|].
  - lia.
  - unfold legs_of in *. rewrite Et. exact nd.
  - unfold legs_of in *. rewrite Et, En. exact al.
  - rewrite Et. unfold data_ok, dim_of in *. rewrite El. exact da.
  - rewrite Et. unfold legs_of, dim_of in *. rewrite Et, El. exact dg.
  - rewrite Et. auto.
  - unfold has_legs, names_of, dims_of, dim_of, legs_of in *. rewrite Et, El. exact HL.
  - intros g. unfold at_, at_names, entry. rewrite Et, El. reflexivity.
Qed.
Lemma divideAll_ok n l V H : forall (h : heap), full h V H l -> NoDup (tids l) -> exists h', divideAll num n l h = (h', Ok tt) /\
  (forall t', ~ In t' (tids l) -> tens h' t' = tens h t') /\ legs h' = legs h /\ nleg h' = nleg h /\ ntens h' = ntens h /\
  forall t, In t (tids l) -> square h' t V H /\ forall u l d r, u < V -> l < H -> d < V -> r < H -> entry4 h' t u l d r = nu_div num (entry4 h t u l d r) n.
Proof.
  induction l as [|x l IH]; intros h Fl ND; cbn [divideAll].
  - exists h. split; [reflexivity|]. split; [reflexivity|]. repeat (split; [reflexivity|]). intros t [].
  - destruct (Fl x (or_introl eq_refl)) as (t & df & -> & Q). cbn [tids flat_map fst app] in ND. apply NoDup_cons_iff in ND. destruct ND as (NI & ND).
    destruct (divideBy_ok h n t df V H Q) as (h1 & E1 & Q1 & KT & KL & KN & KM & EV). unfold bind. rewrite E1.
    assert (Same : forall t' m, t' <> t -> dense_legs h t' m -> dense_legs h1 t' m /\ forall g, at_ h1 t' g = at_ h t' g).
    { intros t' m Ne D. apply same_tensor; auto. }
    destruct (IH h1) as (h' & E & KT' & KL' & KN' & KM' & EV').
    { intros y Hy. destruct (Fl y (or_intror Hy)) as (t' & df' & -> & Q'). exists t', df'. split; [reflexivity|]. apply Same; [|exact Q'].
      intros ->. apply NI. apply in_flat_map. exists (Some (t, df')). split; [exact Hy|left; reflexivity]. }
    { exact ND. }
    exists h'. rewrite E. split; [reflexivity|]. split; [|split; [congruence|split; [congruence|split; [congruence|]]]].
    + intros t' Nt. cbn [tids flat_map fst app] in Nt. rewrite KT' by (intros X; apply Nt; right; exact X). apply KT. intros ->. apply Nt. left. reflexivity.
    + intros t' [<-|Ht'].
      * cbn [fst].
        assert (Et : tens h' t = tens h1 t) by (apply KT'; exact NI).
        assert (S1 : square h' t V H /\ forall g, at_ h' t g = at_ h1 t g).
        { apply same_tensor; auto. }
        destruct S1 as (S1 & S2). split; [exact S1|]. intros u l0 d r Hu Hl Hd Hr. unfold entry4. rewrite S2. apply EV; assumption.
      * destruct (EV' t' Ht') as (S1 & S2). split; [exact S1|]. intros u l0 d r Hu Hl Hd Hr. rewrite S2 by assumption. f_equal. unfold entry4.
        apply in_flat_map in Ht'. destruct Ht' as (x & Hx & Ht'). destruct (Fl x (or_intror Hx)) as (t2 & df2 & -> & Q2). destruct Ht' as [<-|[]]. cbn [fst].
        apply (Same t2 [("u", V); ("l", H); ("d", V); ("r", H)]); [|exact Q2]. intros ->. apply NI. apply in_flat_map. exists (Some (t, df2)). split; [exact Hx|left; reflexivity].
Qed.
Lemma copyAll_ok l V H : forall (h : heap), full h V H l -> exists h' cs, copyAll l h = (h', Ok cs) /\ grown h h' /\ List.length cs = List.length l /\
  forall i t df, nth_error l i = Some (Some (t, df)) -> exists c, nth_error cs i = Some c /\ ntens h <= c /\ square h' c V H /\ forall u l d r, entry4 h' c u l d r = entry4 h t u l d r.
Proof.
  induction l as [|x l IH]; intros h Fl; cbn [copyAll].
  - exists h, []. split; [reflexivity|]. split; [apply grown_refl|]. split; [reflexivity|]. intros [|i] t df; discriminate.
  - destruct (Fl x (or_introl eq_refl)) as (t & df & -> & Q). destruct (copy_named h t _ Q) as (h1 & c & E1 & NT & Qc & EC). unfold bind. rewrite E1.
    pose proof (new_grown _ _ _ NT) as G1.
    destruct (IH h1) as (h' & cs & E & G & LC & P). { intros y Hy. destruct (Fl y (or_intror Hy)) as (t' & df' & -> & Q'). exists t', df'. split; [reflexivity|]. apply (grown_dense _ _ _ _ G1 Q'). }
    exists h', (c :: cs). rewrite E. split; [reflexivity|]. split; [eapply grown_trans; eassumption|]. split; [cbn; congruence|].
    intros [|i] t' df' Hn; cbn [nth_error] in Hn.
    + injection Hn as <- <-. exists c. split; [reflexivity|]. split; [rewrite (nt_id _ _ _ _ NT); lia|]. destruct (grown_dense _ _ _ _ G Qc) as (Q2 & E2 & _). split; [exact Q2|].
      intros. unfold entry4. rewrite E2, EC. reflexivity.
    + destruct (P i t' df' Hn) as (c' & Hc & Le & Qc' & Ec). exists c'. split; [exact Hc|]. split; [pose proof (gr_ntens _ _ G1); lia|]. split; [exact Qc'|].
      intros. rewrite Ec. destruct (Fl (Some (t', df'))) as (t2 & df2 & E2 & Q2). { right. eapply nth_error_In. exact Hn. } injection E2 as <- <-. apply (grown_dense _ _ _ _ G1 Q2).
Qed.

(** ** Arrays whose axes have names *)
Lemma combine_self {X Y} (f : X -> Y) l : combine l (map f l) = map (fun x => (x, f x)) l.
Proof. induction l; cbn; [reflexivity|]. f_equal. assumption. Qed.
Definition four (u l d r : nat) : list (string * nat) := [("u", u); ("l", l); ("d", d); ("r", r)].
Definition dimn (V H : nat) (n : pname) : nat := index_in (four V H V H) n.
Definition legs4 : list pname := [NStr "u"; NStr "l"; NStr "d"; NStr "r"].
Record holds (labs : list pname) (a : arr A) (V H : nat) (F : fun4) : Prop := {
  ho_labs : Permutation labs legs4; ho_wf : wfa a; ho_shape : ashape a = map (dimn V H) labs;
  ho_val : forall u l d r, u < V -> l < H -> d < V -> r < H -> aget a (map (index_in (four u l d r)) labs) = F u l d r }.
Lemma four_range labs V H u l d r : Permutation labs legs4 -> u < V -> l < H -> d < V -> r < H -> inrange (map (dimn V H) labs) (map (index_in (four u l d r)) labs).
Proof.
  intros P Hu Hl Hd Hr. assert (E : forall n, In n labs -> index_in (four u l d r) n < dimn V H n).
  { intros n Hn. apply (Permutation_in _ P) in Hn. destruct Hn as [<-|[<-|[<-|[<-|[]]]]]; cbn; assumption. }
  clear P. induction labs as [|n labs IH]; cbn [map]; constructor; [apply E; left; reflexivity|apply IH; intros; apply E; right; assumption].
Qed.
Lemma square_names (h : heap) t V H : square h t V H -> Permutation (names_of h t) legs4 /\ dims_of h t = map (dimn V H) (names_of h t).
Proof.
  intros (_ & HL). destruct (has_legs_order _ _ _ HL) as (m' & P & En & Ed). split.
  - rewrite En. rewrite <- (map_map fst NStr). change legs4 with (map NStr (map fst [("u", V); ("l", H); ("d", V); ("r", H)])). apply Permutation_map, Permutation_map. exact P.
  - rewrite En, Ed, map_map. apply map_ext_in. intros p Hp. apply (Permutation_in _ P) in Hp. destruct Hp as [<-|[<-|[<-|[<-|[]]]]]; reflexivity.
Qed.
Lemma tensor_holds (h : heap) t V H : square h t V H -> exists a, t_arr (tens h t) = Some a /\ holds (names_of h t) a V H (entry4 h t).
Proof.
  intros Q. destruct (square_names h t V H Q) as (P & Ed). destruct Q as ((WF & NL & ND) & HL). pose proof (wt_data _ _ WF) as DO. unfold data_ok in DO. rewrite NL, ND in DO.
  destruct (t_arr (tens h t)) as [a|] eqn:Ea; [|destruct DO]. destruct DO as (Wa & Sa). exists a. split; [reflexivity|]. split; [exact P|exact Wa|rewrite <- Ed; exact Sa|].
  intros u l d r _ _ _ _. unfold entry4, at_, at_names, entry, entry_of. rewrite Ea, ND. unfold names_of, legs_of. rewrite map_map. reflexivity.
Qed.
Lemma names_strings labs : Permutation labs legs4 -> exists ns, labs = map NStr ns /\ Permutation ns ["u"; "l"; "d"; "r"].
Proof. intros P. change legs4 with (map NStr ["u"; "l"; "d"; "r"]) in P. apply Permutation_map_inv in P. destruct P as (ns & -> & P). exists ns. split; [reflexivity|]. apply Permutation_sym. exact P. Qed.
Lemma holds_tensor (h h' : heap) t labs a V H F : holds labs a V H F -> mkDense None (Some labs) (Some a) None None false h = (h', Ok t) ->
  new_tensor h h' t None /\ square h' t V H /\ forall u l d r, u < V -> l < H -> d < V -> r < H -> entry4 h' t u l d r = F u l d r.
Proof.
  intros [P W Sh Va] R. destruct (names_strings labs P) as (ns & -> & Pn). assert (ND : NoDup ns). { apply (NoDup_perm _ _ (Permutation_sym Pn)). now apply nodupb_ok. }
  destruct (new_data h ns a h' t W R ND) as (NT & DL & EV). split; [exact NT|].
  assert (DL' : dense_legs h' t (map (fun n => (n, dimn V H (NStr n))) ns)).
  { rewrite Sh, map_map, combine_self in DL. exact DL. }
  assert (Q : square h' t V H). { apply (legs_perm h' t _ _ (Permutation_map (fun n => (n, dimn V H (NStr n))) Pn)) in DL'. exact DL'. }
  split; [exact Q|]. intros u l d r Hu Hl Hd Hr. rewrite <- Va by assumption. rewrite <- EV by (rewrite Sh; apply four_range; assumption).
  unfold entry4. apply (at_same h' t [("u", V); ("l", H); ("d", V); ("r", H)]); [apply Q|]. intros n Hn.
  assert (In n ns). { apply (Permutation_in _ (Permutation_sym Pn)). exact Hn. }
  rewrite map_map. clear - H0 ND. change (look [("u", u); ("l", l); ("d", d); ("r", r)] 0 n) with (index_in (four u l d r) (NStr n)).
  generalize (index_in (four u l d r)) as f. intros f. induction ND as [|x ns NI ND IH]; [destruct H0|]. cbn [map combine look]. destruct (dec n x) as [->|Ne]; [reflexivity|].
  destruct H0 as [->|H0]; [contradiction|]. apply IH. exact H0.
Qed.
Lemma get_scale (a : arr A) c idx : aget (arrScale a c) idx = rmul (aget a idx) c.
Proof.
  unfold aget, arrScale. cbn [ashape adata]. rewrite <- (map_nth (fun x => rmul x c)). f_equal. ring.
Qed.
Lemma holds_scale labs a V H F c : holds labs a V H F -> holds labs (arrScale a c) V H (fun u l d r => rmul (F u l d r) c).
Proof.
  intros [P W Sh Va]. split; [exact P| |exact Sh|]; [unfold wfa, arrScale in *; cbn [adata ashape]; rewrite map_length; exact W|].
  intros. rewrite get_scale, Va by assumption. reflexivity.
Qed.
Lemma holds_div labs a V H F c : holds labs a V H F -> holds labs (arrDiv num a c) V H (fun u l d r => nu_div num (F u l d r) c).
Proof.
  intros [P W Sh Va]. split; [exact P| |exact Sh|]; [unfold wfa, arrDiv in *; cbn [adata ashape]; rewrite map_length; exact W|].
  intros u l d r Hu Hl Hd Hr. rewrite <- (Va u l d r) by assumption. unfold aget, arrDiv. cbn [ashape adata].
  rewrite (nth_indep _ r0 (nu_div num r0 c)); [apply (map_nth (fun x => nu_div num x c))|]. rewrite map_length, W. apply ravel_lt. rewrite Sh. apply four_range; assumption.
Qed.
Lemma get_add (a b : list A) : List.length a = List.length b -> forall i, nth i (map (fun p => radd (fst p) (snd p)) (combine a b)) r0 = radd (nth i a r0) (nth i b r0).
Proof.
  revert b. induction a as [|x a IH]; intros [|y b] E; try discriminate E; intros [|i]; cbn; try ring. apply IH. cbn in E. congruence.
Qed.
Lemma holds_add labs a b V H F G c : holds labs a V H F -> holds labs b V H G -> arrAdd a b = Ok c -> holds labs c V H (fun u l d r => radd (F u l d r) (G u l d r)).
Proof.
  intros [P W Sh Va] [P2 W2 Sh2 Va2] E. unfold arrAdd in E. destruct (dec (ashape a) (ashape b)) as [Es|]; [|discriminate E]. injection E as <-.
  assert (LE : List.length (adata a) = List.length (adata b)) by (unfold wfa in *; congruence).
  split; [exact P| |exact Sh|].
  - unfold wfa in *. cbn [adata ashape]. rewrite map_length, combine_length, LE, Nat.min_id, W2. congruence.
  - intros. rewrite <- Va, <- Va2 by assumption. unfold aget. cbn [ashape adata]. rewrite get_add by exact LE. rewrite <- Es. reflexivity.
Qed.
Lemma holds_ext labs a V H F G : holds labs a V H F -> (forall u l d r, u < V -> l < H -> d < V -> r < H -> F u l d r = G u l d r) -> holds labs a V H G.
Proof. intros [P W Sh Va] E. split; auto. intros. rewrite Va by assumption. auto. Qed.
(** reArrange *)
Lemma arrange_ok (h h' : heap) t V H labs : square h t V H -> reArrange t labs h = (h', Ok tt) -> Permutation labs legs4 ->
  square h' t V H /\ names_of h' t = labs /\ only_tensor h h' t /\ forall u l d r, u < V -> l < H -> d < V -> r < H -> entry4 h' t u l d r = entry4 h t u l d r.
Proof.
  intros Q R P. destruct (square_names h t V H Q) as (Pn & Ed). pose proof Q as ((WF & NL & ND) & HL).
  destruct (reArrange_ok h t labs WF) as (h1 & E & OT & WF' & En & Pl & EV); [transitivity legs4; [exact Pn|apply Permutation_sym; exact P]|]. rewrite R in E. injection E as <-.
  assert (Ed' : dims_of h' t = map (dimn V H) (names_of h' t)).
  { unfold dims_of, names_of, dim_of. rewrite map_map, (ot_legs _ _ _ OT). unfold dims_of, names_of, dim_of in Ed. rewrite map_map in Ed.
    apply map_ext_in. intros l Hl. apply (Permutation_in _ Pl) in Hl. clear - Ed Hl. induction (legs_of h t) as [|x ls IH]; [destruct Hl|]. cbn in Ed. injection Ed as E1 E2. destruct Hl as [<-|Hl]; auto. }
  assert (HL' : has_legs h' t [("u", V); ("l", H); ("d", V); ("r", H)]).
  { unfold has_legs. rewrite Ed', combine_self, En. apply (Permutation_map (fun n => (n, dimn V H n))) in P. exact P. }
  split; [|split; [exact En|split; [exact OT|]]].
  - split; [split; [exact WF'|]|exact HL'].
    unfold reArrange, bind at 1, reads at 1, bind at 1, assert at 1 in R. destruct (compareLists (labels h t) labs); [|discriminate R]. cbv beta iota delta [ret] in R. unfold moveLabelsToFront, bind at 1, readsR at 1 in R.
    pose proof (getLegsByLabel_spec h t labs) as G. destruct (getLegsByLabel h t labs) as [ls|e]; [|discriminate R]. destruct G as (_ & _ & NDl & Hi & _).
    destruct (moveLegsToFront_ok h t ls WF (NDl (wt_nodup _ _ WF)) Hi) as (h2 & E2 & _ & _ & _ & E3 & E4 & _). rewrite R in E2. injection E2 as <-. rewrite E3, E4. auto.
  - intros u l d r Hu Hl Hd Hr. unfold entry4, at_, at_names. rewrite (ot_legs _ _ _ OT). apply EV. intros x Hx.
    assert (E : dim_of h x = dimn V H (l_name (legs h x))).
    { unfold dims_of, names_of in Ed. rewrite map_map in Ed. clear - Ed Hx. induction (legs_of h t) as [|y ls IH]; [destruct Hx|]. cbn in Ed. injection Ed as E1 E2. destruct Hx as [<-|Hx]; auto. }
    rewrite E. assert (I : In (l_name (legs h x)) legs4) by (apply (Permutation_in _ Pn); unfold names_of; apply in_map with (f := fun l => l_name (legs h l)); exact Hx).
    destruct I as [<-|[<-|[<-|[<-|[]]]]]; cbn; assumption.
Qed.

(** ** The loops *)
Lemma grown_only (h h1 h2 : heap) t : grown h h1 -> ntens h <= t -> only_tensor h1 h2 t -> grown h h2.
Proof.
  intros [a b c d] Le OT. split.
  - intros l Hl. rewrite (ot_legs _ _ _ OT). auto.
  - intros t' Ht. rewrite (ot_tens _ _ _ OT) by lia. auto.
  - rewrite (ot_nleg _ _ _ OT). exact c.
  - rewrite (ot_ntens _ _ _ OT). exact d.
Qed.
Lemma fused_ext V H (T1 T2 T1' T2' : fun4) P Q : (forall u l d r, T1 u l d r = T1' u l d r) -> (forall u l d r, T2 u l d r = T2' u l d r) ->
  forall u l d r, fused V H T1 T2 P Q u l d r = fused V H T1' T2' P Q u l d r.
Proof.
  intros E1 E2 u l d r. unfold fused, pillar. apply sumN_eq. intros a _. apply sumN_eq. intros b _. apply sumN_eq. intros c _. apply sumN_eq. intros e _. f_equal. f_equal.
  apply sumN_eq. intros x _. rewrite E1, E2. reflexivity.
Qed.
Section Loops.
Variables (s : impurityTN) (g : hotrg) (w0 : world) (V H idx k : nat) (d : string) (P : arr A).
Hypothesis IL : List.length (i_imps s) = i_order s.
Hypothesis IA : forall i, i < i_order s -> exists df, nth_error (i_imps s) i = Some (Some (imp s i, df)) /\ square (w_heap w0) (imp s i) V H.
Hypothesis Hd : nth_error (o_choices g) idx = Some d.
Hypothesis HP : nth_error (o_projs g) idx = Some P.
Hypothesis WP : wfa P.
Hypothesis SP : ashape P = [cut d V H * cut d V H; k].
Notation V' := (newV d V k).
Notation H' := (newH d H k).
Definition fv (h : heap) (p : list nat) : fun4 :=
  unturn d (fused (kept d V H) (cut d V H) (turn d (imp_entry h s (nth 0 p 0))) (turn d (imp_entry h s (nth 1 p 0))) (fun x o => aget P [x; o]) (fun x o => nu_conj num (aget P [x; o]))).
Definition wp (wt : A) (p : list nat) : A := rmul (ofNat (Z.to_nat (calculateDivisionTimes p))) wt.
Definition accinv (wt : A) (done : list (list nat)) (acc : A * option (list pname * arr A)) : Prop :=
  fst acc = sumL done (wp wt) /\
  match snd acc with None => done = [] | Some (labs, a) => holds labs a V' H' (fun u l dd r => sumL done (fun p => rmul (fv (w_heap w0) p u l dd r) (wp wt p))) end.
Definition two (p : list nat) : Prop := exists j1 j2, p = [j1; j2] /\ j1 < i_order s /\ j2 < i_order s.
Lemma sumL_snoc {X} (l : list X) x (f : X -> A) : sumL (l ++ [x]) f = radd (sumL l f) (f x).
Proof. rewrite sumL_app. cbn [sumL]. ring. Qed.
Lemma loop_ok wt ds : forall done (w w' : world) acc acc', divisionLoop symdiff fuel num g (i_imps s) idx wt ds acc w = (w', Ok acc') ->
  grown (w_heap w0) (w_heap w) -> nets_ready w g -> (forall p, In p ds -> two p) -> accinv wt done acc ->
  grown (w_heap w) (w_heap w') /\ nets_ready w' g /\ (ds <> [] -> In d dirs) /\ accinv wt (done ++ ds) acc'.
Proof.
  induction ds as [|p ds IH]; intros done w w' acc acc' R G0 NR Tw AI; cbn [divisionLoop] in R.
  - injection R as <- <-. rewrite app_nil_r. split; [apply grown_refl|]. split; [exact NR|]. split; [intros X; exfalso; apply X; reflexivity|exact AI].
  - destruct (Tw p (or_introl eq_refl)) as (j1 & j2 & -> & J1 & J2).
    destruct (IA j1 J1) as (df1 & N1 & Q1). destruct (IA j2 J2) as (df2 & N2 & Q2).
    assert (PT : partTensors (i_imps s) [j1; j2] = Ok (Some [imp s j1; imp s j2])) by (cbn [partTensors]; rewrite N1, N2; reflexivity).
    apply wbind_inv in R. destruct R as (w1 & ts & R1 & R). apply liftR_inv in R1. destruct R1 as (-> & E1). rewrite PT in E1. injection E1 as <-.
    apply wbind_inv in R. destruct R as (w1 & res & R1 & R).
    unfold impurityIterate in R1. rewrite Hd, HP in R1.
    destruct (grown_dense _ _ _ _ G0 Q1) as (Q1' & E1 & _). destruct (grown_dense _ _ _ _ G0 Q2) as (Q2' & E2 & _).
    destruct (directed_ok symdiff SD fuel num w w1 g d P _ _ V H k res R1 NR Q1' Q2' WP SP) as (Id & Q & NR1 & G1 & Le & EV).
    assert (EV' : forall u l dd r, u < V' -> l < H' -> dd < V' -> r < H' -> entry4 (w_heap w1) res u l dd r = fv (w_heap w0) [j1; j2] u l dd r).
    { intros u l dd r Hu Hl Hdd Hr. rewrite EV by assumption. unfold fv. apply unturn_ext. apply fused_ext; apply turn_ext; intros; unfold imp_entry, entry4; cbn [nth]; [apply E1|apply E2]. }
    change (rmul (ofNat (Z.to_nat (calculateDivisionTimes [j1; j2]))) wt) with (wp wt [j1; j2]) in R.
    destruct acc as (tot & [[labs a0]|]); cbn [fst snd] in R; destruct AI as (AT & AA); cbn [fst snd] in AT, AA.
    + apply wbind_inv in R. destruct R as (w2 & [] & R2 & R). apply lift_inv in R2. destruct R2 as (h2 & R2 & ->).
      destruct (arrange_ok _ h2 res V' H' labs Q R2 (ho_labs _ _ _ _ _ AA)) as (Qr & En & OT & Er).
      destruct (tensor_holds h2 res V' H' Qr) as (a & Ea & Ha). rewrite En in Ha.
      apply wbind_inv in R. destruct R as (w3 & a' & R3 & R). apply lift_inv in R3. destruct R3 as (h3 & R3 & ->). cbn [with_heap w_heap] in R3.
      unfold getArr, bind, reads in R3. rewrite Ea in R3. injection R3 as <- <-.
      apply wbind_inv in R. destruct R as (w3 & a2 & R3 & R). apply liftR_inv in R3. destruct R3 as (-> & R3).
      pose proof (grown_only _ _ _ _ G1 Le OT) as G2.
      destruct (IH (done ++ [[j1; j2]]) _ _ _ _ R) as (G3 & NR3 & _ & AI3).
      * cbn [with_heap w_heap]. eapply grown_trans; eassumption.
      * apply nets_heap, nets_heap. exact NR1.
      * intros p Hp. apply Tw. right. exact Hp.
      * split; cbn [fst snd]; [rewrite AT, sumL_snoc; reflexivity|].
        eapply holds_ext; [eapply holds_add; [exact AA|apply holds_scale; exact Ha|exact R3]|]. intros u l dd r Hu Hl Hdd Hr. cbn beta. rewrite sumL_snoc, Er, EV' by assumption. reflexivity.
      * cbn [with_heap w_heap] in G3. split; [eapply grown_trans; eassumption|]. split; [exact NR3|]. split; [auto|]. rewrite <- app_assoc in AI3. exact AI3.
    + subst done. destruct (tensor_holds (w_heap w1) res V' H' Q) as (a & Ea & Ha).
      apply wbind_inv in R. destruct R as (w2 & labs & R2 & R). apply lift_inv in R2. destruct R2 as (h2 & R2 & ->). unfold reads in R2. injection R2 as <- <-.
      apply wbind_inv in R. destruct R as (w3 & a' & R3 & R). apply lift_inv in R3. destruct R3 as (h3 & R3 & ->). cbn [with_heap w_heap] in R3.
      unfold getArr, bind, reads in R3. rewrite Ea in R3. injection R3 as <- <-.
      destruct (IH [[j1; j2]] _ _ _ _ R) as (G3 & NR3 & _ & AI3).
      * cbn [with_heap w_heap]. eapply grown_trans; eassumption.
      * apply nets_heap, nets_heap. exact NR1.
      * intros p Hp. apply Tw. right. exact Hp.
      * split; cbn [fst snd]; [rewrite AT; cbn [sumL]; ring|].
        eapply holds_ext; [apply holds_scale; exact Ha|]. intros u l dd r Hu Hl Hdd Hr. cbn beta. cbn [sumL]. rewrite EV' by assumption. ring.
      * cbn [with_heap w_heap] in G3. split; [eapply grown_trans; eassumption|]. split; [exact NR3|]. split; [auto|exact AI3].
Qed.
Lemma divisions i : divideIntoKParts i 2 = Ok (map (fun j => [j; i - j]) (seq 0 (S i))).
Proof.
  cbn [divideIntoKParts divide_aux]. f_equal. replace (i + 1) with (S i) by lia. generalize (seq 0 (S i)). intros l. induction l as [|x l IH]; [reflexivity|]. cbn [flat_map map app] in *. f_equal; try exact IH.
Qed.
Lemma division_times i j : j <= i -> Z.to_nat (calculateDivisionTimes [j; i - j]) = binom i j.
Proof.
  intros J. unfold calculateDivisionTimes. cbn [cdt_loop list_sum fold_right]. replace (j + (i - j + 0)) with i by lia. rewrite <- Nat2Z.inj_sub by exact J. rewrite !myComb_binom.
  replace (binom (i - j) (i - j)) with 1; [rewrite !Z.mul_1_l, Z.mul_1_r; apply Nat2Z.id|]. generalize (i - j). clear. intros n. symmetry.
  assert (Out : forall n k, n < k -> binom n k = 0) by (intros m; induction m as [|m IHm]; intros [|q] K; cbn; try lia; rewrite !IHm by lia; reflexivity).
  induction n as [|n IHn]; [reflexivity|]. cbn. rewrite IHn, Out by lia. reflexivity.
Qed.
Lemma of_nat n : ofNat n = natA n :> A.
Proof. induction n; cbn; congruence. Qed.
Lemma sum_divisions i (f : list nat -> A) : sumL (map (fun j => [j; i - j]) (seq 0 (S i))) f = sumN (S i) (fun j => f [j; i - j]).
Proof. apply sumL_map. Qed.
Lemma order_ok dof is : forall (w w' : world) l, orderLoop symdiff fuel num half g (i_imps s) idx dof is w = (w', Ok l) -> grown (w_heap w0) (w_heap w) -> nets_ready w g ->
  (forall i, In i is -> i < i_order s) ->
  grown (w_heap w) (w_heap w') /\ nets_ready w' g /\ (is <> [] -> In d dirs) /\ List.length l = List.length is /\ NoDup (tids l) /\ (forall t, In t (tids l) -> ntens (w_heap w) <= t) /\
  forall n i, nth_error is n = Some i -> exists t, nth_error l n = Some (Some (t, Some dof)) /\ square (w_heap w') t V' H' /\
    forall u l dd r, u < V' -> l < H' -> dd < V' -> r < H' -> entry4 (w_heap w') t u l dd r = nu_div num (mixed num half (w_heap w0) s V H d P i u l dd r) (total_weight half i).
Proof.
  induction is as [|i is IH]; intros w w' l R G0 NR Li; cbn [orderLoop] in R.
  - injection R as <- <-. split; [apply grown_refl|]. split; [exact NR|]. split; [intros X; exfalso; apply X; reflexivity|]. split; [reflexivity|]. split; [constructor|]. split; [intros t []|]. intros [|n] i; discriminate.
  - apply wbind_inv in R. destruct R as (w1 & ds & R1 & R). apply liftR_inv in R1. destruct R1 as (-> & E1). rewrite divisions in E1. assert (Eds : ds = map (fun j => [j; i - j]) (seq 0 (S i))) by congruence. subst ds.
    apply wbind_inv in R. destruct R as (w1 & (tot & o) & R1 & R).
    assert (Ii : i < i_order s) by (apply Li; left; reflexivity).
    destruct (loop_ok (np_pow half i) _ [] w w1 _ _ R1 G0 NR) as (G1 & NR1 & ID & AT & AA).
    { intros p Hp. apply in_map_iff in Hp. destruct Hp as (j & <- & Hj). apply in_seq in Hj. exists j, (i - j). split; [reflexivity|]. lia. }
    { split; [reflexivity|]. reflexivity. }
    cbn [fst snd app] in AT, AA, R. destruct o as [[labs a]|]; [|discriminate AA].
    assert (Wt : forall j, j <= i -> wp (np_pow half i) [j; i - j] = weight half i j).
    { intros j J. unfold wp, weight. rewrite division_times by exact J. rewrite of_nat, np_pow_pow. reflexivity. }
    assert (ET : tot = total_weight half i). { rewrite AT, sum_divisions. apply sumN_eq. intros j J. apply Wt. lia. }
    apply wbind_inv in R. destruct R as (w2 & t & R2 & R). apply lift_inv in R2. destruct R2 as (h2 & R2 & ->).
    destruct (holds_tensor _ _ _ _ _ V' H' _ (holds_div _ _ _ _ _ tot AA) R2) as (NT & Q & EV). pose proof (new_grown _ _ _ NT) as G2.
    apply wbind_inv in R. destruct R as (w3 & rest & R3 & R). injection R as <- <-.
    destruct (IH _ _ _ R3) as (G3 & NR3 & _ & LL & ND & LB & X).
    { cbn [with_heap w_heap]. eapply grown_trans; [exact G0|]. eapply grown_trans; eassumption. }
    { apply nets_heap. exact NR1. }
    { intros j Hj. apply Li. right. exact Hj. }
    cbn [with_heap w_heap] in G3, LB.
    assert (It : t = ntens (w_heap w1)) by apply (nt_id _ _ _ _ NT). assert (In2 : ntens h2 = S (ntens (w_heap w1))) by apply (nt_ntens _ _ _ _ NT).
    split; [eapply grown_trans; [exact G1|]; eapply grown_trans; eassumption|]. split; [exact NR3|]. split; [intros _; apply ID; discriminate|]. split; [cbn; congruence|].
    split; [cbn [tids flat_map fst app]; constructor; [intros X0; apply LB in X0; lia|exact ND]|].
    split. { intros t' [<-|Ht]; cbn [fst]; [pose proof (gr_ntens _ _ G1); lia|]. apply LB in Ht. pose proof (gr_ntens _ _ G1). lia. }
    intros [|n] i' Hn; cbn [nth_error] in Hn.
    + injection Hn as <-. exists t. split; [reflexivity|]. destruct (grown_dense _ _ _ _ G3 Q) as (Q3 & E3 & _). split; [exact Q3|].
      intros u l dd r Hu Hl Hdd Hr. unfold entry4. rewrite E3. fold (entry4 h2 t u l dd r). rewrite EV by assumption. cbn beta. rewrite ET. f_equal.
      rewrite sum_divisions. unfold mixed. apply sumN_eq. intros j J. rewrite Wt by lia. reflexivity.
    + destruct (X n i' Hn) as (t' & N' & Q' & E'). exists t'. split; [exact N'|]. split; [exact Q'|exact E'].
Qed.
End Loops.

(** ** A step *)
Lemma map_NoDup_in {X Y} (f : X -> Y) l : NoDup l -> (forall x y, In x l -> In y l -> f x = f y -> x = y) -> NoDup (map f l).
Proof.
  induction l as [|x l IH]; intros N I; [constructor|]. apply NoDup_cons_iff in N. destruct N as (NI & N). cbn [map]. constructor.
  - intros X0. apply in_map_iff in X0. destruct X0 as (y & E & Hy). apply NI. rewrite (I x y); [exact Hy|left; reflexivity|right; exact Hy|congruence].
  - apply IH; [exact N|]. intros y z Hy Hz. apply I; right; assumption.
Qed.
Lemma append_imp (w w' : world) (s s' : impurityTN) g dof V H n : appendToArchiveI num s n w = (w', Ok s') -> istate w s g dof V H ->
  exists cs, s' = mkImp (i_imps s) (i_order s) (i_rg s) (i_archive s ++ [cs]) (i_norms s ++ [n]) (i_idx s) (i_init s) /\ istate w' s' g dof V H /\ archived_all (w_heap w') s' cs V H /\
    (forall h0, grown h0 (w_heap w) -> (forall i, i < i_order s -> ntens h0 <= imp s i) -> grown h0 (w_heap w')) /\
    (forall i c, nth_error cs i = Some c -> ntens (w_heap w) <= c) /\
    forall i u l d r, i < i_order s -> u < V -> l < H -> d < V -> r < H -> imp_entry (w_heap w') s' i u l d r = nu_div num (imp_entry (w_heap w) s i u l d r) n.
Proof.
  intros R [Rg NR LO IA ID Df]. unfold appendToArchiveI in R. apply wbind_inv in R. destruct R as (w1 & [] & R1 & R). apply lift_inv in R1. destruct R1 as (h1 & R1 & ->).
  assert (Fl : full (w_heap w) V H (i_imps s)).
  { intros x Hx. apply In_nth_error in Hx. destruct Hx as (i & Hi). assert (Li : i < i_order s) by (rewrite <- LO; apply nth_error_Some; congruence).
    destruct (IA i Li) as (df & E & Q). rewrite Hi in E. injection E as ->. eauto. }
  assert (TE : tids (i_imps s) = map (imp s) (seq 0 (i_order s))).
  { rewrite <- LO. assert (E : forall i x, nth_error (i_imps s) i = Some x -> exists df, x = Some (imp s i, df)).
    { intros i x Hx. assert (Li : i < i_order s) by (rewrite <- LO; apply nth_error_Some; congruence). destruct (IA i Li) as (df & E & _). exists df. congruence. }
    clear - E. assert (G : forall l a, (forall i x, nth_error l i = Some x -> exists df, x = Some (imp s (a + i), df)) -> tids l = map (imp s) (seq a (List.length l))).
    { induction l as [|x l IH]; intros a Ea; [reflexivity|]. destruct (Ea 0 x eq_refl) as (df & ->). cbn [tids flat_map fst app List.length seq map]. rewrite Nat.add_0_r. f_equal.
      apply IH. intros i x Hx. destruct (Ea (S i) x Hx) as (df' & ->). exists df'. do 3 f_equal. lia. }
    apply (G _ 0). exact E. }
  assert (ND : NoDup (tids (i_imps s))).
  { rewrite TE. apply map_NoDup_in; [apply seq_NoDup|]. intros x y Hx Hy. apply in_seq in Hx, Hy. apply Df; lia. }
  destruct (divideAll_ok n (i_imps s) V H (w_heap w) Fl ND) as (h1' & E1 & KT & KL & KN & KM & EV). rewrite R1 in E1. injection E1 as <-.
  assert (EV2 : forall i, i < i_order s -> square h1 (imp s i) V H /\ forall u l d r, u < V -> l < H -> d < V -> r < H -> entry4 h1 (imp s i) u l d r = nu_div num (entry4 (w_heap w) (imp s i) u l d r) n).
  { intros i Hi. apply EV. rewrite TE. apply in_map. apply in_seq. lia. }
  apply wbind_inv in R. destruct R as (w2 & cs & R2 & R). apply lift_inv in R2. destruct R2 as (h2 & R2 & ->). injection R as <- <-. cbn [with_heap w_heap] in R2.
  assert (Fl1 : full h1 V H (i_imps s)).
  { intros x Hx. apply In_nth_error in Hx. destruct Hx as (i & Hi). assert (Li : i < i_order s) by (rewrite <- LO; apply nth_error_Some; congruence).
    destruct (IA i Li) as (df & E & _). rewrite Hi in E. injection E as ->. exists (imp s i), df. split; [reflexivity|]. apply EV2. exact Li. }
  destruct (copyAll_ok (i_imps s) V H h1 Fl1) as (h2' & cs' & E2 & G & LC & PC). rewrite R2 in E2. injection E2 as <- <-.
  exists cs. split; [reflexivity|]. cbn [with_heap w_heap].
  assert (Sq2 : forall i, i < i_order s -> square h2 (imp s i) V H /\ forall g, at_ h2 (imp s i) g = at_ h1 (imp s i) g).
  { intros i Hi. destruct (EV2 i Hi) as (Q & _). destruct (grown_dense _ _ _ _ G Q) as (Q2 & E & _). auto. }
  split; [|split; [|split; [|split]]].
  - split; cbn [i_rg i_imps i_order]; [exact Rg|apply nets_heap, nets_heap; exact NR|exact LO| |exact ID|exact Df].
    intros i Hi. destruct (IA i Hi) as (df & E & _). exists df. split; [exact E|]. apply Sq2. exact Hi.
  - split; [cbn [i_order]; congruence|]. intros i c Hc. assert (Li : i < i_order s) by (rewrite <- LO, <- LC; apply nth_error_Some; congruence).
    destruct (IA i Li) as (df & E & _). destruct (PC i _ _ E) as (c' & Hc' & Le & Qc & Ec). rewrite Hc in Hc'. injection Hc' as <-.
    destruct (EV2 i Li) as (Q1 & _). split; [|split; [exact Qc|]].
    + unfold imp at 1. cbn [i_imps]. fold (imp s i). intros ->. destruct Q1 as ((W & _) & _). apply wt_id in W. lia.
    + intros u l d r. rewrite Ec. unfold imp. cbn [i_imps]. fold (imp s i). unfold entry4. symmetry. apply Sq2. exact Li.
  - intros h0 G0 Le. eapply grown_trans; [|exact G]. destruct G0 as [a b c e]. split; [intros; rewrite KL; auto| |lia|lia].
    intros t Ht. rewrite KT; [auto|]. rewrite TE. intros X. apply in_map_iff in X. destruct X as (i & <- & Hi). apply in_seq in Hi. specialize (Le i). lia.
  - intros i c Hc. assert (Li : i < i_order s) by (rewrite <- LO, <- LC; apply nth_error_Some; congruence).
    destruct (IA i Li) as (df & E & _). destruct (PC i _ _ E) as (c' & Hc' & Le & _). rewrite Hc in Hc'. injection Hc' as <-. lia.
  - intros i u l d r Hi Hu Hl Hdd Hr. unfold imp_entry. change (imp (mkImp (i_imps s) (i_order s) (i_rg s) (i_archive s ++ [cs]) (i_norms s ++ [n]) (i_idx s) (i_init s)) i) with (imp s i).
    unfold entry4 at 1. destruct (Sq2 i Hi) as (_ & E). rewrite E. apply EV2; assumption.
Qed.
Theorem iterateI_ok (w w' : world) (s s' : impurityTN) g dof V H k d P : iterateI symdiff fuel num half s w = (w', Ok s') -> istate w s g dof V H -> i_init s = true ->
  nth_error (o_choices g) (i_idx s) = Some d -> nth_error (o_projs g) (i_idx s) = Some P -> wfa P -> ashape P = [cut d V H * cut d V H; k] ->
  exists n cs, nth_error (o_norms g) (S (i_idx s)) = Some n /\ In d dirs /\ istate w' s' g (2 * dof) (newV d V k) (newH d H k) /\ i_init s' = true /\ i_order s' = i_order s /\ i_idx s' = S (i_idx s) /\
    i_norms s' = i_norms s ++ [n] /\ i_archive s' = i_archive s ++ [cs] /\ archived_all (w_heap w') s' cs (newV d V k) (newH d H k) /\ grown (w_heap w) (w_heap w') /\
    forall i u l dd r, i < i_order s -> u < newV d V k -> l < newH d H k -> dd < newV d V k -> r < newH d H k ->
      imp_entry (w_heap w') s' i u l dd r = nu_div num (nu_div num (mixed num half (w_heap w) s V H d P i u l dd r) (total_weight half i)) n.
Proof.
  intros R IS In0 Hd HP WP SP. pose proof IS as [Rg NR LO IA ID Df]. unfold iterateI in R. rewrite In0 in R. apply wbind_inv in R. destruct R as (w1 & s1 & R1 & R). injection R1 as <- <-. rewrite Rg in R.
  apply wbind_inv in R. destruct R as (w1 & n & R1 & R). apply liftR_inv in R1. destruct R1 as (-> & R1). unfold getNorm in R1. replace (i_idx s + 1) with (S (i_idx s)) in R1 by lia.
  destruct (nth_error (o_norms g) (S (i_idx s))) as [n'|] eqn:En; [|discriminate R1]. injection R1 as ->.
  apply wbind_inv in R. destruct R as (w1 & nd & R1 & R). destruct ID as (t0 & T0).
  assert (E : w1 = w /\ nd = 2 * dof). { destruct (i_imps s) as [|x l]; [discriminate T0|]. cbn in T0. injection T0 as ->. injection R1 as <- <-. auto. } destruct E as (-> & ->). clear R1.
  apply wbind_inv in R. destruct R as (w1 & l & R1 & R).
  destruct (order_ok s g w V H (i_idx s) k d P LO IA Hd HP WP SP _ _ w w1 l R1 (grown_refl _) NR) as (G1 & NR1 & Idir & LL & ND & LB & X). { intros i Hi. apply in_seq in Hi. lia. }
  rewrite seq_length in LL.
  assert (XX : forall i, i < i_order s -> exists t, nth_error l i = Some (Some (t, Some (2 * dof))) /\ square (w_heap w1) t (newV d V k) (newH d H k) /\ 
     forall u l dd r, u < newV d V k -> l < newH d H k -> dd < newV d V k -> r < newH d H k -> entry4 (w_heap w1) t u l dd r = nu_div num (mixed num half (w_heap w) s V H d P i u l dd r) (total_weight half i)).
  { intros i Hi. apply X. rewrite (nth_error_nth' _ 0) by (rewrite seq_length; exact Hi). rewrite seq_nth by exact Hi. reflexivity. }
  set (s2 := mkImp l (i_order s) (Some g) (i_archive s) (i_norms s) (i_idx s + 1) (i_init s)) in *.
  assert (Im2 : forall i t df, nth_error l i = Some (Some (t, df)) -> imp s2 i = t) by (intros i t df E; unfold imp, s2; cbn [i_imps]; rewrite E; reflexivity).
  assert (IS2 : istate w1 s2 g (2 * dof) (newV d V k) (newH d H k)).
  { split; [reflexivity|exact NR1|exact LL| | |].
    - intros i Hi. destruct (XX i Hi) as (t & E & Q & _). exists (Some (2 * dof)). rewrite (Im2 i _ _ E). split; [exact E|exact Q].
    - assert (L0 : 0 < i_order s) by (rewrite <- LO; apply nth_error_Some; congruence). destruct (XX 0 L0) as (t & E & _). exists t. exact E.
    - intros i j Hi Hj E. change (i_order s2) with (i_order s) in *. destruct (XX i Hi) as (t & Ei & _). destruct (XX j Hj) as (t' & Ej & _). rewrite (Im2 _ _ _ Ei), (Im2 _ _ _ Ej) in E. subst t'.
      clear - ND Ei Ej. revert i j Ei Ej. induction l as [|x l IH]; intros i j Ei Ej; [destruct i; discriminate Ei|]. 
      assert (TI : forall i, nth_error l i = Some (Some (t, Some (2 * dof))) -> In t (tids l)) by (intros q Hq; apply in_flat_map; exists (Some (t, Some (2 * dof))); split; [eapply nth_error_In; exact Hq|left; reflexivity]).
      destruct x as [[t1 df1]|]; cbn [tids flat_map fst app] in ND.
      + apply NoDup_cons_iff in ND. destruct ND as (NI & ND). destruct i, j; cbn [nth_error] in Ei, Ej; auto.
        * injection Ei as -> _. exfalso. apply NI. apply TI in Ej. exact Ej.
        * injection Ej as -> _. exfalso. apply NI. apply TI in Ei. exact Ei.
      + destruct i, j; cbn [nth_error] in Ei, Ej; try discriminate. f_equal. apply IH; auto. }
  destruct (append_imp w1 w' s2 s' g (2 * dof) _ _ n R IS2) as (cs & -> & IS' & AR & GF & LC & EV).
  exists n, cs. split; [reflexivity|]. split; [apply Idir; assert (L0 : 0 < i_order s) by (rewrite <- LO; apply nth_error_Some; congruence); destruct (i_order s); [lia|discriminate]|]. split; [exact IS'|]. cbn [i_init i_order i_idx i_norms i_archive]. split; [exact In0|]. split; [reflexivity|]. split; [unfold s2; cbn [i_idx]; lia|]. split; [reflexivity|]. split; [reflexivity|].
  split; [exact AR|]. split.
  - apply GF; [exact G1|]. intros i Hi. change (i_order s2) with (i_order s) in Hi. destruct (XX i Hi) as (t & E & _). rewrite (Im2 _ _ _ E). apply LB. apply in_flat_map. exists (Some (t, Some (2 * dof))). split; [eapply nth_error_In; exact E|left; reflexivity].
  - intros i u l0 dd r Hi Hu Hl Hdd Hr. rewrite EV by assumption. f_equal. destruct (XX i Hi) as (t & E & Q & EX). unfold imp_entry. rewrite (Im2 _ _ _ E). apply EX; assumption.
Qed.
End Im.
