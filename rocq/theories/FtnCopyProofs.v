(** The local copies made by contract: what they represent after renaming, tagging and linking. *)
From Coq Require Import List Arith Bool String Ascii Lia Permutation.
From Verif Require Import Base Sums NdModel HeapModel FuncsModel TensorModel TensorSpec ContractModel NetSpec SearchModel GraphModel NetGraphModel FtnModel FtnSpec FtnNetSpec
  FuncsProofs TensorProofs LabelProofs CopyProofs LinkProofs NetProofs SumpairsProofs SeqProofs FrameProofs.
Import ListNotations.
Local Open Scope nat_scope.

Section Fc.
Context {A : Type} {HA : SR A}.
Notation heap := (heap A).
Variable h0 : heap.

Record mir (h : heap) (N : list pname) (t c : tid) : Prop := {
  mi_wf : wf_tensor h c; mi_owned : owned h c;
  mi_names : names_of h c = N; mi_dims : dims_of h c = dims_of h0 t;
  mi_diag : t_diag (tens h c) = t_diag (tens h0 t); mi_like : t_like (tens h c) = t_like (tens h0 t);
  mi_entry : forall s s', map s' (legs_of h c) = map s (legs_of h0 t) -> entry h c s' = entry h0 t s }.
Record ext (h h' : heap) : Prop := {
  ex_legs : forall l, l < nleg h -> legs h' l = legs h l; ex_tens : forall t, t < ntens h -> tens h' t = tens h t;
  ex_nleg : nleg h <= nleg h'; ex_ntens : ntens h <= ntens h' }.
Lemma ext_refl h : ext h h. Proof. constructor; auto. Qed.
Lemma ext_trans h1 h2 h3 : ext h1 h2 -> ext h2 h3 -> ext h1 h3.
Proof. intros [a b c d] [a' b' c' d']. constructor; try lia; intros; [rewrite a', a|rewrite b', b]; auto; lia. Qed.
Lemma ext_legs_of h h' t : ext h h' -> t < ntens h -> legs_of h' t = legs_of h t.
Proof. intros E Ht. unfold legs_of. now rewrite (ex_tens _ _ E). Qed.
Lemma ext_wf h h' t : ext h h' -> wf_tensor h t -> wf_tensor h' t.
Proof.
  intros E W. apply (wf_same h h'); auto; [apply (ex_tens _ _ E), W| |apply E|apply E]. intros l Hl. unfold dim_of. rewrite (ex_legs _ _ E); auto. now apply W.
Qed.
Lemma ext_copied h h' t c : copied h h' t c -> ext h h'.
Proof.
  intros C. destruct C as [N _ _ _ _ _ _]. destruct N as [n1 n2 n3 n4 n5 n6 n7 n8]. destruct n8 as (n8 & _). constructor; auto; lia.
Qed.
Lemma mir_ext h h' N t c : ext h h' -> mir h N t c -> (forall l, In l (legs_of h c) -> l < nleg h) -> mir h' N t c.
Proof.
  intros E [m1 m2 m3 m4 m5 m6 m7] HL. assert (Hc : c < ntens h) by apply m1. assert (EL := ext_legs_of h h' c E Hc). assert (ET : tens h' c = tens h c) by (now apply (ex_tens _ _ E)).
  constructor.
  - eapply ext_wf; eauto.
  - intros l Hl. rewrite EL in Hl. rewrite (ex_legs _ _ E); auto.
  - rewrite <- m3. unfold names_of. rewrite EL. apply map_ext_in. intros l Hl. rewrite (ex_legs _ _ E); auto.
  - rewrite <- m4. unfold dims_of. rewrite EL. apply map_ext_in. intros l Hl. unfold dim_of. rewrite (ex_legs _ _ E); auto.
  - now rewrite ET.
  - now rewrite ET.
  - intros s s' Hs. rewrite EL in Hs. rewrite <- (m7 s s' Hs). unfold entry. now rewrite ET.
Qed.

Definition mirrors (h : heap) (N : string * tid -> list pname) (d loc : list (string * tid)) : Prop :=
  Forall2 (fun p q => fst q = fst p /\ mir h (N p) (snd p) (snd q)) d loc.

Lemma classic_diag (h : heap) t : (t_diag (tens h t) = true /\ t_like (tens h t) = false /\ legs_of h t = []) \/
  ~ (t_diag (tens h t) = true /\ t_like (tens h t) = false /\ legs_of h t = []).
Proof.
  destruct (t_diag (tens h t)); [|right; intros (X & _); discriminate]. destruct (t_like (tens h t)); [right; intros (_ & X & _); discriminate|].
  destruct (legs_of h t); [now left|right; intros (_ & _ & X); discriminate].
Qed.
Lemma localCopies_ok (d : list (string * tid)) : forall h h' loc, ext h0 h -> (forall p, In p d -> wf_tensor h0 (snd p)) ->
  localCopies d h = (h', Ok loc) ->
  ext h h' /\ mirrors h' (fun p => names_of h0 (snd p)) d loc /\ NoDup (map snd loc) /\ NoDup (all_legs h' (map snd loc)) /\
  (forall c, In c (map snd loc) -> ntens h <= c) /\
  forall l, In l (all_legs h' (map snd loc)) -> nleg h <= l /\ l_bond (legs h' l) = None.
Proof.
  induction d as [|[nm t] d IH]; intros h h' loc E W R.
  - injection R as <- <-. simpl. split; [apply ext_refl|]. split; [constructor|]. split; [constructor|]. split; [constructor|]. split; [intros c []|intros l []].
  - unfold localCopies in R. cbn [mapM fst snd] in R. unfold bind at 1 2 in R.
    assert (Wt : wf_tensor h t) by (eapply ext_wf; [exact E|]; apply (W (nm, t)); now left).
    assert (ET : tens h t = tens h0 t) by (apply (ex_tens _ _ E); apply (W (nm, t)); now left).
    assert (EL : legs_of h t = legs_of h0 t) by (unfold legs_of; now rewrite ET).
    destruct (classic_diag h t) as [Sc|NS].
    { rewrite copy_scalar_diag in R by (auto; apply Sc). discriminate. }
    destruct (copy_ok h t Wt NS) as (h1 & c & EC & C & Lk & En). rewrite EC in R. cbn [ret] in R.
    unfold bind in R. destruct (mapM _ d h1) as (h2 & [loc'|e]) eqn:Em; [|discriminate]. injection R as <- <-.
    pose proof (ext_copied _ _ _ _ C) as E1.
    destruct (IH h1 h2 loc' (ext_trans _ _ _ E E1) (fun p Hp => W p (or_intror Hp)) Em) as (E2 & F & ND & NL & Hc & HB).
    destruct C as [[n1 n2 n3 n4 n5 n6 n7 n8] cw co cn cd cg cm]. destruct n8 as (n8 & n9 & n10).
    assert (Hlc : forall l, In l (legs_of h1 c) -> nleg h <= l < nleg h1).
    { intros l Hl. rewrite n9 in Hl. apply in_seq in Hl. rewrite n7. lia. }
    assert (M1 : mir h1 (names_of h0 t) t c).
    { constructor; auto.
      - rewrite cn. unfold names_of. rewrite EL. apply map_ext_in. intros l Hl. rewrite (ex_legs _ _ E); auto. destruct (W (nm, t)) as [_ _ w3 _ _]; [now left|]. now apply w3.
      - rewrite cd. unfold dims_of, dim_of. rewrite EL. apply map_ext_in. intros l Hl. rewrite (ex_legs _ _ E); auto. destruct (W (nm, t)) as [_ _ w3 _ _]; [now left|]. now apply w3.
      - now rewrite cg, ET.
      - now rewrite Lk, ET.
      - intros s s' Hs. rewrite (En s s'); [unfold entry; now rewrite ET|]. now rewrite EL. }
    assert (M2 : mir h2 (names_of h0 t) t c) by (eapply mir_ext; eauto; intros l Hl; apply Hlc in Hl; lia).
    assert (EL2 : legs_of h2 c = legs_of h1 c) by (apply (ext_legs_of h1 h2); auto; lia).
    split; [eapply ext_trans; eauto|]. split; [constructor; [now split|exact F]|].
    split; [simpl; constructor; auto; intros X; apply Hc in X; lia|]. split.
    + unfold all_legs. cbn [map flat_map snd]. rewrite EL2. apply NoDup_app_intro; [apply cw|exact NL|].
      intros l H1 H2. apply Hlc in H1. apply HB in H2. lia.
    + split.
      * intros x [<-|Hx]; [cbn; lia|]. apply Hc in Hx. pose proof (ex_ntens _ _ E1). lia.
      * intros l Hl. unfold all_legs in Hl. cbn [map flat_map snd] in Hl. rewrite EL2 in Hl. apply in_app_iff in Hl. destruct Hl as [Hl|Hl].
        -- split; [apply Hlc in Hl; lia|]. rewrite (ex_legs _ _ E2) by (apply Hlc in Hl; lia). now apply n10.
        -- destruct (HB l Hl). split; auto. pose proof (ex_nleg _ _ E1). lia.
Qed.

(** ** Names *)
Lemma loop_inv (step : pname -> res pname) (body : lid -> @M A unit) :
  (forall (h : heap) l, match step (l_name (legs h l)) with
    | Ok n => exists h1, body l h = (h1, Ok tt) /\ only_names h h1 [l] (fun _ => n)
    | Err e => body l h = (h, Err e) end) ->
  forall L (h h' : heap), NoDup L -> iterM body L h = (h', Ok tt) ->
  only_names h h' L (stepped step h) /\ forall l, In l L -> exists n, step (l_name (legs h l)) = Ok n.
Proof.
  intros Hbody L h h' ND R. assert (AO : forall l, In l L -> exists n, step (l_name (legs h l)) = Ok n).
  { revert h ND R. induction L as [|l L IH]; intros h ND R x Hx; [destruct Hx|]. inversion ND as [|? ? Hl ND']; subst. cbn [iterM] in R. unfold bind in R.
    pose proof (Hbody h l) as B. destruct (step (l_name (legs h l))) as [n|e] eqn:En; [|rewrite B in R; discriminate]. destruct B as (h1 & E1 & O1). rewrite E1 in R.
    destruct Hx as [<-|Hx]; [eauto|]. specialize (IH h1 ND' R x Hx). rewrite (on_out _ _ _ _ O1) in IH; auto. intros [->|[]]. auto. }
  split; auto. destruct (loop_ok step body Hbody L h ND AO) as (h2 & E2 & O2). rewrite E2 in R. injection R as <-. exact O2.
Qed.
Lemma addTensorTag_inv (h h' : heap) t tag : NoDup (legs_of h t) -> addTensorTag t tag h = (h', Ok tt) ->
  only_names h h' (legs_of h t) (fun l => tag_name tag (l_name (legs h l))).
Proof.
  intros ND R. destruct (loop_inv (addStep tag) (addBody tag) (addBody_spec tag) (legs_of h t) h h' ND R) as (O & S1).
  eapply only_names_ext; [exact O|tauto|]. intros l Hl. unfold stepped. destruct (S1 l Hl) as (n & En). rewrite En. unfold addStep in En.
  destruct (l_name (legs h l)) as [|s|]; try discriminate. destruct (findDash s); [discriminate|]. now injection En as <-.
Qed.
Lemma untag_spec s : match findDash s with Some k => dropChars (k + 1) s | None => s end = match after_dash s with Some v => v | None => s end.
Proof.
  assert (H : forall s, match findDash s with Some k => after_dash s = Some (dropChars (k + 1) s) | None => after_dash s = None end).
  { clear. induction s as [|c s IH]; simpl; auto. destruct (Ascii.eqb c "-"); [destruct s; reflexivity|]. destruct (findDash s); simpl; auto. }
  specialize (H s). destruct (findDash s); rewrite H; auto.
Qed.
Lemma removeTensorTag_inv (h h' : heap) t : NoDup (legs_of h t) -> removeTensorTag t h = (h', Ok tt) ->
  only_names h h' (legs_of h t) (fun l => untag_name (l_name (legs h l))).
Proof.
  intros ND R. destruct (loop_inv removeStep removeBody removeBody_spec (legs_of h t) h h' ND R) as (O & S1).
  eapply only_names_ext; [exact O|tauto|]. intros l Hl. unfold stepped. destruct (S1 l Hl) as (n & En). rewrite En. unfold removeStep in En.
  destruct (l_name (legs h l)) as [|s|]; try discriminate. injection En as <-. cbn [untag_name]. now rewrite untag_spec.
Qed.

Lemma mir_names (h h' : heap) L f N t c : only_names h h' L f -> mir h N t c -> mir h' (names_of h' c) t c.
Proof.
  intros O [m1 m2 m3 m4 m5 m6 m7]. constructor; auto.
  - eapply only_names_wf; eauto.
  - intros l Hl. rewrite (only_names_legs _ _ _ _ _ O) in Hl. destruct (in_dec Nat.eq_dec l L) as [I|I]; [rewrite (on_in _ _ _ _ O); auto|rewrite (on_out _ _ _ _ O); auto]. now apply m2.
  - rewrite <- m4. unfold dims_of. rewrite (only_names_legs _ _ _ _ _ O). apply map_ext. intros l. eapply only_names_dim; eauto.
  - now rewrite (on_tens _ _ _ _ O).
  - now rewrite (on_tens _ _ _ _ O).
  - intros s s' Hs. rewrite (only_names_legs _ _ _ _ _ O) in Hs. rewrite <- (m7 s s' Hs). unfold entry. now rewrite (on_tens _ _ _ _ O).
Qed.
Lemma names_apart (h h' : heap) L f c : only_names h h' L f -> (forall l, In l L -> ~ In l (legs_of h c)) -> names_of h' c = names_of h c.
Proof.
  intros O D. unfold names_of. rewrite (only_names_legs _ _ _ _ _ O). apply map_ext_in. intros l Hl. rewrite (on_out _ _ _ _ O); auto. intros X. now apply (D l).
Qed.
Lemma only_names_bond (h h' : heap) L f l : only_names h h' L f -> l_bond (legs h' l) = l_bond (legs h l).
Proof. intros O. destruct (in_dec Nat.eq_dec l L) as [I|I]; [rewrite (on_in _ _ _ _ O); auto|rewrite (on_out _ _ _ _ O); auto]. Qed.
Lemma only_names_all (h h' : heap) L f ts : only_names h h' L f -> all_legs h' ts = all_legs h ts.
Proof. intros O. unfold all_legs. apply flat_map_ext. intros t. eapply only_names_legs; eauto. Qed.

Lemma NoDup_fst_eq {X Y} (l : list (X * Y)) x y y' : NoDup (map fst l) -> In (x, y) l -> In (x, y') l -> y = y'.
Proof.
  intros K. induction l as [|z l IH]; [intros []|]. simpl in K. inversion K as [|? ? K1 K2]; subst. intros [->|H] [E|H'].
  - now injection E.
  - exfalso; apply K1; apply (in_map fst) in H'; exact H'.
  - subst z. exfalso; apply K1; apply (in_map fst) in H; exact H.
  - auto.
Qed.
Lemma NoDup_snd_eq {X Y} (l : list (X * Y)) x x' y : NoDup (map snd l) -> In (x, y) l -> In (x', y) l -> x = x'.
Proof.
  intros K. induction l as [|z l IH]; [intros []|]. simpl in K. inversion K as [|? ? K1 K2]; subst. intros [->|H] [E|H'].
  - now injection E.
  - exfalso; apply K1; apply (in_map snd) in H'; exact H'.
  - subst z. exfalso; apply K1; apply (in_map snd) in H; exact H.
  - auto.
Qed.
Record locals (h : heap) (N : string * tid -> list pname) (d loc : list (string * tid)) : Prop := {
  lo_mir : mirrors h N d loc; lo_keys : NoDup (map fst d); lo_ids : NoDup (map snd loc);
  lo_nodup : NoDup (all_legs h (map snd loc)); lo_bond : forall l, In l (all_legs h (map snd loc)) -> l_bond (legs h l) = None }.
Lemma mirrors_fst h N d loc : mirrors h N d loc -> map fst loc = map fst d.
Proof. induction 1 as [|p q d loc [E _] _ IH]; simpl; congruence. Qed.
Lemma mirrors_In h N d loc q : mirrors h N d loc -> In q loc -> exists p, In p d /\ fst q = fst p /\ mir h (N p) (snd p) (snd q).
Proof. induction 1 as [|p q' d loc [E M] _ IH]; simpl; [tauto|]. intros [<-|H]; [exists p; auto|]. destruct (IH H) as (p' & H1 & H2). exists p'. auto. Qed.
(** a step that renames the legs of the one local tensor called [nm] *)
Lemma locals_step h h' L f N N' d loc nm c : locals h N d loc -> In (nm, c) loc -> only_names h h' L f -> incl L (legs_of h c) ->
  (forall p, In p d -> fst p = nm -> names_of h' c = N' p) -> (forall p, In p d -> fst p <> nm -> N' p = N p) -> locals h' N' d loc.
Proof.
  intros [m1 m2 m3 m4 m5] Hc O I H1 H2. constructor; auto.
  - unfold mirrors in *. assert (KF : NoDup (map fst loc)) by (rewrite (mirrors_fst h N d loc m1); auto).
    assert (K : forall p q, In p d -> In q loc -> fst q = fst p -> mir h (N p) (snd p) (snd q) -> mir h' (N' p) (snd p) (snd q)).
    { intros p q Hp Hq E M. pose proof (mir_names h h' L f _ _ _ O M) as M'. destruct (string_dec (fst p) nm) as [En|En].
      - assert (snd q = c) as EQ by (eapply (NoDup_fst_eq loc nm); [exact KF| |exact Hc]; rewrite <- En, <- E; now destruct q).
        rewrite EQ in *. now rewrite <- (H1 p Hp En).
      - rewrite (H2 p Hp En). rewrite (names_apart h h' L f) in M'; auto; [now rewrite (mi_names _ _ _ _ M) in M'|].
        intros l Hl X. apply I in Hl. assert (snd q = c) as EQ.
        { apply (one_owner h (map snd loc) (snd q) c l); auto; [apply in_map; auto|now apply (in_map snd) in Hc]. }
        apply En. rewrite <- E. apply (NoDup_snd_eq loc _ _ c m3); [rewrite <- EQ; now destruct q|exact Hc]. }
    clear -K m1. induction m1 as [|p q d loc [E M] F IH]; constructor; [split; auto; apply K; simpl; auto|]. apply IH. intros; apply K; simpl; auto.
  - now rewrite (only_names_all _ _ _ _ _ O).
  - intros l Hl. rewrite (only_names_all _ _ _ _ _ O) in Hl. rewrite (only_names_bond _ _ _ _ _ O). auto.
Qed.
Lemma locals_In h N d loc nm c : locals h N d loc -> In (nm, c) loc -> exists t, In (nm, t) d /\ mir h (N (nm, t)) t c.
Proof. intros Lo Hc. destruct (mirrors_In h N d loc (nm, c) (lo_mir _ _ _ _ Lo) Hc) as ([n t] & H1 & H2 & H3). simpl in *. subst n. eauto. Qed.
Lemma locals_ext h N N' d loc : (forall p, In p d -> N p = N' p) -> locals h N d loc -> locals h N' d loc.
Proof.
  intros E [m1 m2 m3 m4 m5]. constructor; auto. clear -E m1. induction m1 as [|p q d loc [E1 M] F IH]; constructor; [split; auto; now rewrite <- E by (simpl; auto)|]. apply IH. intros; apply E; simpl; auto.
Qed.
Definition pre_step (e : string * string * string) (N : string * tid -> list pname) (p : string * tid) : list pname :=
  let '(n, a, b) := e in if dec n (fst p) then replace_first (NStr a) (NStr b) (N p) else N p.
Lemma preNames_ok d loc before : forall h h' N, locals h N d loc -> preNames loc before h = (h', Ok tt) ->
  locals h' (fun p => fold_left (fun N e => let '(n, a, b) := e in if dec n (fst p) then replace_first (NStr a) (NStr b) N else N) before (N p)) d loc /\
  nleg h' = nleg h /\ ntens h' = ntens h.
Proof.
  induction before as [|[[n a] b] before IH]; intros h h' N Lo R.
  - injection R as <-. auto.
  - unfold preNames in R. cbn [iterM] in R. unfold bind at 1 in R. unfold bind at 1, localGet in R. destruct (dictGet loc n) as [c|] eqn:Ec; [|discriminate]. cbn [ret] in R.
    apply dictGet_In in Ec. destruct (locals_In _ _ _ _ _ _ Lo Ec) as (t & Ht & M).
    destruct (renameLabel_ok h c (NStr a) (NStr b)) as (h1 & L & E1 & O & _ & I & EN); [apply M|]. rewrite E1 in R.
    assert (Lo1 : locals h1 (pre_step (n, a, b) N) d loc).
    { eapply locals_step; [exact Lo|exact Ec|exact O|exact I| |]; intros p Hp En; unfold pre_step.
      - rewrite EN. subst n. destruct (dec (fst p) (fst p)); [|congruence]. f_equal. assert (p = (fst p, t)) as ->; [|apply M].
        destruct p as [np tp]. simpl in *. f_equal. eapply NoDup_fst_eq; [apply Lo|exact Hp|exact Ht].
      - destruct (dec n (fst p)); [congruence|reflexivity]. }
    destruct (IH h1 h' _ Lo1 R) as (H1 & H2 & H3). rewrite (on_nleg _ _ _ _ O) in H2. rewrite (on_ntens _ _ _ _ O) in H3. split; auto.
Qed.
Lemma tagAll_ok d loc N : forall todo done h h', loc = done ++ todo ->
  locals h (fun p => if inb (fst p) (map fst done) then map (tag_name (fst p)) (N p) else N p) d loc ->
  tagAll todo h = (h', Ok tt) -> locals h' (fun p => map (tag_name (fst p)) (N p)) d loc /\ nleg h' = nleg h /\ ntens h' = ntens h.
Proof.
  induction todo as [|[n c] todo IH]; intros done h h' E Lo R.
  - injection R as <-. split; auto. eapply locals_ext; [|exact Lo]. intros p Hp. cbn. rewrite app_nil_r in E. subst done.
    rewrite (mirrors_fst _ _ _ _ (lo_mir _ _ _ _ Lo)). destruct (inb (fst p) (map fst d)) eqn:Eb; auto. apply inb_false in Eb. exfalso. apply Eb. now apply in_map.
  - unfold tagAll in R. cbn [iterM fst snd] in R. unfold bind in R. destruct (addTensorTag c n h) as (h1 & [[]|]) eqn:E1; [|discriminate].
    assert (Hc : In (n, c) loc) by (rewrite E; apply in_app_iff; simpl; auto). destruct (locals_In _ _ _ _ _ _ Lo Hc) as (t & Ht & M). cbn [fst] in M.
    apply addTensorTag_inv in E1 as O; [|apply M]. pose proof (mirrors_fst _ _ _ _ (lo_mir _ _ _ _ Lo)) as KF.
    assert (Nn : ~ In n (map fst done)).
    { pose proof (lo_keys _ _ _ _ Lo) as K. rewrite <- KF, E, map_app in K. cbn [map fst] in K. apply NoDup_remove_2 in K. intros X. apply K. apply in_app_iff. auto. }
    destruct (IH (done ++ [(n, c)]) h1 h') as (H1 & H2 & H3); auto.
    + now rewrite <- app_assoc.
    + eapply locals_step; [exact Lo|exact Hc|exact O|apply incl_refl| |]; intros p Hp En; cbv beta; rewrite map_app; cbn [map fst].
      * assert (inb (fst p) (map fst done ++ [n]) = true) as ->; [apply inb_spec, in_app_iff; rewrite En; simpl; auto|].
        destruct p as [np tp]. cbn [fst] in *. subst np. assert (tp = t) as -> by (eapply NoDup_fst_eq; [apply Lo|exact Hp|exact Ht]).
        pose proof (mi_names _ _ _ _ M) as EN. destruct (inb n (map fst done)) eqn:Eb; [apply inb_spec in Eb; contradiction|]. rewrite <- EN. unfold names_of.
        rewrite (only_names_legs _ _ _ _ _ O), map_map. apply map_ext_in. intros l Hl. now rewrite (on_in _ _ _ _ O).
      * destruct (inb (fst p) (map fst done)) eqn:Eb.
        -- apply inb_spec in Eb. assert (inb (fst p) (map fst done ++ [n]) = true) as ->; auto. apply inb_spec, in_app_iff; auto.
        -- apply inb_false in Eb. assert (inb (fst p) (map fst done ++ [n]) = false) as ->; auto. apply inb_false. intros X. apply in_app_iff in X. simpl in X. intuition congruence.
    + rewrite (on_nleg _ _ _ _ O) in H2. rewrite (on_ntens _ _ _ _ O) in H3. auto.
Qed.
End Fc.
