(** The steps after the contraction: declared outer products, renamings and removal of tags. *)
From Coq Require Import List Arith Bool String Ascii Lia Permutation ListDec.
From Verif Require Import Base Sums NdModel HeapModel FuncsModel TensorModel TensorSpec NetSpec FtnModel FtnNetSpec
  FuncsProofs NdProofs TensorProofs LabelProofs CopyProofs NetProofs MergeProofs MatrixProofs FtnCopyProofs.
Import ListNotations.
Local Open Scope nat_scope.

Lemma as_nth {X} (L : list X) x0 : L = map (fun k => nth k L x0) (seq 0 (List.length L)).
Proof.
  induction L as [|x L IH] using rev_ind; auto. rewrite app_length, seq_app, map_app. simpl. f_equal.
  - rewrite IH at 1. apply map_ext_in. intros i Hi. apply in_seq in Hi. rewrite app_nth1 by lia. reflexivity.
  - rewrite app_nth2 by lia. now rewrite Nat.sub_diag.
Qed.
Lemma combine_nth_seq {X} (L : list X) x0 : combine (seq 0 (List.length L)) L = map (fun k => (k, nth k L x0)) (seq 0 (List.length L)).
Proof.
  rewrite (as_nth L x0) at 2. generalize (seq 0 (List.length L)) as S0. induction S0 as [|k S0 IH]; auto. cbn [map combine]. now rewrite IH.
Qed.
Lemma filter_map_eq {X Y} (f : X -> Y) g l : filter g (map f l) = map f (filter (fun x => g (f x)) l).
Proof. induction l as [|x l IH]; auto. simpl. destruct (g (f x)); simpl; now rewrite IH. Qed.
Lemma map_eq_nth {X Y Z} (f : X -> Z) (g : Y -> Z) L M x0 y0 k : map f L = map g M -> k < List.length L -> f (nth k L x0) = g (nth k M y0).
Proof. revert M k. induction L as [|x L IH]; intros [|y M] k E Hk; simpl in *; try lia; try discriminate. injection E as E1 E2. destruct k; auto. apply IH; auto. lia. Qed.
Lemma ravel_nested {X} (D S : X -> list nat) l : (forall x, In x l -> List.length (S x) = List.length (D x)) ->
  ravel (flat_map D l) (flat_map S l) = ravel (map (fun x => prodn (D x)) l) (map (fun x => ravel (D x) (S x)) l) /\ prodn (flat_map D l) = prodn (map (fun x => prodn (D x)) l).
Proof.
  induction l as [|x l IH]; intros H; [auto|]. cbn [flat_map map]. destruct IH as (I1 & I2); [intros y Hy; apply H; simpl; auto|]. split.
  - rewrite ravel_app by (apply H; simpl; auto). cbn [ravel]. rewrite I1, I2. reflexivity.
  - rewrite prodn_app, I2. reflexivity.
Qed.
Lemma map_flat_map {X Y Z} (f : Y -> Z) (g : X -> list Y) l : map f (flat_map g l) = flat_map (fun x => map f (g x)) l.
Proof. induction l as [|x l IH]; auto. cbn [flat_map]. now rewrite map_app, IH. Qed.

Section Post.
Context {A : Type} {HA : SR A}.
Notation heap := (heap A).
Variable h0 : heap.
Notation represents := (represents h0).

Lemma labels_found (h : heap) t labs (os : list (option lid)) : os = map (fun n => getLeg h t n false) labs -> 
  List.find (fun o => match o with None => true | Some _ => false end) os = None ->
  exists ls, flat_map (fun o => match o with Some l => [l] | None => [] end) os = ls /\ Forall2 (fun n l => getLeg h t n false = Some l) labs ls.
Proof.
  revert os. induction labs as [|n labs IH]; intros os -> F; [exists []; split; [reflexivity|constructor]|]. cbn [map] in *. cbn [List.find] in F.
  destruct (getLeg h t n false) as [l|] eqn:E; [|discriminate]. destruct (IH _ eq_refl F) as (ls & E1 & F1). exists (l :: ls). cbn [flat_map app]. rewrite E1. split; [reflexivity|constructor; auto].
Qed.
Lemma out_inv (h : heap) t labs new h' n : wf_tensor h t -> t_like (tens h t) = false -> outProductLabels t labs new h = (h', Ok n) ->
  exists ls, Forall2 (fun n l => getLeg h t n false = Some l) labs ls /\ NoDup ls /\ ls <> [] /\ n = nleg h /\
    merged h h' t ls n new /\ wf_tensor h' t /\
    (forall s s', in_bounds h (legs_of h t) s -> (forall l, In l (legs_of h t) -> ~ In l ls -> s' l = s l) ->
      s' n = ravel (map (dim_of h) ls) (map s ls) -> entry h' t s' = entry h t s).
Proof.
  intros W TL R. unfold outProductLabels in R. unfold bind at 1, reads at 1 in R. destruct (t_diag (tens h t)) eqn:D; [discriminate|].
  unfold bind at 1 in R. destruct (Nat.ltb 0 (List.length labs)) eqn:E0; [|discriminate]. cbn [assert ret] in R. unfold bind at 1, reads at 1 in R.
  destruct (List.find _ _) as [o|] eqn:EF.
  - exfalso. unfold bind in R. destruct (iterM _ _ h) as (h1 & [[]|]); discriminate.
  - destruct (labels_found h t labs _ eq_refl EF) as (ls & E1 & F). rewrite E1 in R.
    assert (Ne : ls <> []) by (intros ->; inversion F; subst; discriminate).
    assert (I : incl ls (legs_of h t)) by (intros l Hl; clear -F Hl; induction F as [|? ? ? ? G F IH]; [destruct Hl|destruct Hl as [<-|Hl]; [eapply getLeg_In; eauto|auto]]).
    destruct (ListDec.NoDup_dec Nat.eq_dec ls) as [ND|ND].
    + assert (PZ : (forall l, In l (legs_of h t) -> ~ In l ls -> 0 < dim_of h l) \/ exists l, In l (legs_of h t) /\ ~ In l ls /\ dim_of h l = 0).
      { clear. induction (legs_of h t) as [|l L [IH|(x & H1 & H2)]]; [left; intros ? []| |right; exists x; simpl; auto].
        destruct (in_dec Nat.eq_dec l ls) as [Il|Il]; [left; intros x [<-|Hx] K; [contradiction|auto]|]. destruct (dim_of h l) eqn:E; [right; exists l; simpl; auto|].
        left. intros x [<-|Hx] K; [lia|auto]. }
      destruct PZ as [PZ|(l & H1 & H2 & H3)].
      * destruct (outProduct_ok h t ls new W D Ne ND I (fun _ => PZ)) as (h2 & E2 & MG & W2 & EN). rewrite E2 in R. injection R as <- <-. exists ls. auto 8.
      * destruct (outProduct_zero h t ls new l W D TL Ne ND I H1 H2 H3) as (h2 & E2). rewrite E2 in R. discriminate.
    + destruct (outProduct_bad h t ls new) as (h2 & E2 & _); auto; [apply W|tauto|]. rewrite E2 in R. discriminate.
Qed.

Lemma out_represents (h : heap) t items F labs new h' n : represents h t items F -> t_like (tens h t) = false ->
  outProductLabels t (map join_label labs) (NStr ("res-" ++ new)) h = (h', Ok n) ->
  exists items', joined items (labs, new) items' /\ represents h' t items' F /\ t_like (tens h' t) = false /\ t_diag (tens h' t) = t_diag (tens h t).
Proof.
  intros [W RN RD RE] TL R. destruct (out_inv h t _ _ h' n W TL R) as (ls & F2 & ND & Ne & En & MG & W' & EV).
  set (L := legs_of h t) in *. set (it0 := (NNone, @nil role) : item). assert (NL : NoDup L) by apply W.
  assert (Len : List.length items = List.length L) by (pose proof (f_equal (@List.length _) RN) as X; unfold names_of in X; rewrite !map_length in X; auto).
  assert (EXK : exists ks, Forall2 (first_at items) (map join_label labs) ks /\ ls = map (fun k => nth k L 0) ks /\ forall k, In k ks -> k < List.length L).
  { clear -F2 RN. induction F2 as [|lab l labs' ls' G F2 IH]; [exists []; split; [constructor|split; [reflexivity|intros ? []]]|]. destruct IH as (ks & K1 & K2 & K3).
    apply getLeg_first_named in G as (u & v & EL & E1 & E2). exists (List.length u :: ks). fold L in EL. split; [constructor; auto|split].
    - unfold first_at. rewrite <- RN. unfold names_of. fold L. rewrite EL, map_app. cbn [map]. split.
      + rewrite nth_error_app2 by (rewrite map_length; lia). rewrite map_length, Nat.sub_diag. cbn. now rewrite E1.
      + rewrite <- (map_length (fun l => l_name (legs h l)) u). rewrite firstn_app, firstn_all, Nat.sub_diag. cbn [firstn]. rewrite app_nil_r. intros X. apply in_map_iff in X as (x & E & Hx). now apply (E2 x Hx).
    - cbn [map]. f_equal; auto. rewrite EL, app_nth2, Nat.sub_diag by lia. reflexivity.
    - intros k [<-|Hk]; auto. rewrite EL, app_length. simpl. lia. }
  destruct EXK as (ks & FA & Els & Bk).
  assert (NK : NoDup ks) by (rewrite Els in ND; now apply NoDup_map_inv in ND).
  set (J := filter (fun k => negb (inb k ks)) (seq 0 (List.length L))).
  assert (RI : map snd (filter (fun p => negb (inb (fst p) ks)) (combine (seq 0 (List.length items)) items)) = map (fun k => nth k items it0) J).
  { rewrite (combine_nth_seq items it0), filter_map_eq, map_map. cbn [fst snd]. unfold J. now rewrite Len. }
  assert (RLg : filter (fun l => negb (inb l ls)) L = map (fun k => nth k L 0) J).
  { rewrite (as_nth L 0) at 1. rewrite filter_map_eq. unfold J. f_equal. apply filter_ext_in. intros k Hk. apply in_seq in Hk. f_equal.
    destruct (inb k ks) eqn:E; [apply inb_spec in E; apply inb_spec; rewrite Els; apply in_map_iff; eauto|]. apply inb_false in E. apply inb_false. intros X. apply E.
    rewrite Els in X. apply in_map_iff in X as (k' & E' & Hk'). apply (proj1 (NoDup_nth L 0) NL) in E'; [congruence|auto|lia]. }
  assert (LL : forall k, k < List.length L -> nth k L 0 < nleg h) by (intros k Hk; apply W; apply nth_In; auto).
  assert (HN : forall k, k < List.length L -> l_name (legs h (nth k L 0)) = fst (nth k items it0)) by (intros k Hk; apply (map_eq_nth _ _ _ _ 0 it0 k RN Hk)).
  assert (HD : forall k, k < List.length L -> dim_of h (nth k L 0) = prodn (map (rdim h0) (snd (nth k items it0)))) by (intros k Hk; apply (map_eq_nth _ _ _ _ 0 it0 k RD Hk)).
  assert (JL : forall k, In k J -> k < List.length L /\ ~ In k ks) by (intros k Hk; apply filter_In in Hk as (H1 & H2); apply in_seq in H1; apply negb_true_iff, inb_false in H2; split; [lia|auto]).
  assert (EL' : legs_of h' t = n :: map (fun k => nth k L 0) J) by (rewrite (mg_tlegs _ _ _ _ _ _ MG); fold L; now rewrite RLg).
  assert (HD2 : forall s, map (dim_of h) ls = map (fun k => prodn (map (rdim h0) (snd (nth k items it0)))) ks /\
     ravel (map (rdim h0) (flat_map (fun k => snd (nth k items it0)) ks)) (map s (flat_map (fun k => snd (nth k items it0)) ks)) =
     ravel (map (dim_of h) ls) (map (fun k => ravel (map (rdim h0) (snd (nth k items it0))) (map s (snd (nth k items it0)))) ks) /\
     prodn (map (rdim h0) (flat_map (fun k => snd (nth k items it0)) ks)) = prodn (map (dim_of h) ls)).
  { intros s. assert (E : map (dim_of h) ls = map (fun k => prodn (map (rdim h0) (snd (nth k items it0)))) ks).
    { rewrite Els, map_map. apply map_ext_in. intros k Hk. apply HD. auto. }
    split; auto. rewrite E, !map_flat_map. apply ravel_nested. intros k _. now rewrite !map_length. }
  exists ((NStr ("res-" ++ new), flat_map (fun k => snd (nth k items it0)) ks) :: map (fun k => nth k items it0) J). split; [|split].
  - exists ks. cbn [fst snd]. rewrite RI. split; [exact FA|]. split; [exact NK|]. split; [intros ->; apply Ne; exact Els|reflexivity].
  - apply Build_represents.
    + exact W'.
    + unfold names_of. rewrite EL'. cbn [map fst]. rewrite (mg_new _ _ _ _ _ _ MG). cbn [l_name]. f_equal. rewrite !map_map. apply map_ext_in. intros k Hk. destruct (JL k Hk) as (H1 & _).
      rewrite (mg_legs _ _ _ _ _ _ MG) by auto. auto.
    + unfold dims_of. rewrite EL'. cbn [map snd]. unfold dim_of at 1. rewrite (mg_new _ _ _ _ _ _ MG). cbn [l_dim]. f_equal; [symmetry; apply (HD2 (fun _ => 0))|].
      rewrite !map_map. apply map_ext_in. intros k Hk. destruct (JL k Hk) as (H1 & _). unfold dim_of. rewrite (mg_legs _ _ _ _ _ _ MG) by auto. apply HD; auto.
    + intros s s' Bs E. rewrite EL' in E. cbn [map snd] in E. injection E as E1 E2. rewrite !map_map in E2.
      set (s2 := fun l => match index_of l L with Some k => ravel (map (rdim h0) (snd (nth k items it0))) (map s (snd (nth k items it0))) | None => 0 end).
      assert (S2 : forall k, k < List.length L -> s2 (nth k L 0) = ravel (map (rdim h0) (snd (nth k items it0))) (map s (snd (nth k items it0)))).
      { intros k Hk. unfold s2. now rewrite index_of_NoDup_nth. }
      assert (Bs2 : forall k, k < List.length L -> forall r, In r (snd (nth k items it0)) -> s r < rdim h0 r).
      { intros k Hk r Hr. apply Bs. cbn [flat_map snd]. apply in_app_iff. destruct (in_dec Nat.eq_dec k ks) as [I|I].
        - left. apply in_flat_map. eauto.
        - right. apply in_flat_map. exists (nth k items it0). split; auto. apply in_map_iff. exists k. split; auto. apply filter_In. split; [apply in_seq; lia|]. now apply negb_true_iff, inb_false. }
      rewrite (EV s2 s').
      * apply RE.
        -- intros r Hr. apply in_flat_map in Hr as (it & Hit & Hr). apply (In_nth _ _ it0) in Hit as (k & Hk & <-). apply (Bs2 k); auto. lia.
        -- fold L. rewrite (as_nth L 0) at 1. rewrite (as_nth items it0) at 1. rewrite Len, !map_map. apply map_ext_in. intros k Hk. apply in_seq in Hk. apply S2. lia.
      * intros l Hl. fold L in Hl. apply (In_nth _ _ 0) in Hl as (k & Hk & <-). rewrite S2, HD by auto. apply ravel_lt. clear -Bs2 Hk.
        specialize (Bs2 k Hk). induction (snd (nth k items it0)) as [|r l IH]; [constructor|]. cbn [map]. constructor; [apply Bs2; simpl; auto|apply IH; intros r' Hr'; apply Bs2; simpl; auto].
      * intros l Hl Hn. fold L in Hl. apply (In_nth _ _ 0) in Hl as (k & Hk & <-). assert (HJ : In k J).
        { apply filter_In. split; [apply in_seq; lia|]. apply negb_true_iff, inb_false. intros X. apply Hn. rewrite Els. apply in_map_iff. eauto. }
        rewrite S2 by auto. apply (ext_in_map E2 k HJ).
      * rewrite E1. destruct (HD2 s) as (_ & X & _). rewrite X. f_equal. rewrite Els, map_map. apply map_ext_in. intros k Hk. symmetry. apply S2. auto.
  - destruct (mg_flags _ _ _ _ _ _ MG) as (H1 & H & _). now rewrite H, H1.
Qed.
Lemma outLabel_is lab : outLabel lab = join_label lab. Proof. destruct lab; reflexivity. Qed.
Lemma postOut_represents t F out : forall (h : heap) items h', represents h t items F -> t_like (tens h t) = false -> postOut t out h = (h', Ok tt) ->
  exists items', joined_all items out items' /\ represents h' t items' F /\ t_like (tens h' t) = false /\ t_diag (tens h' t) = t_diag (tens h t).
Proof.
  induction out as [|[labs new] out IH]; intros h items h' RP TL R.
  - injection R as <-. exists items. split; [constructor|auto].
  - unfold postOut in R. cbn [iterM fst snd] in R. unfold bind at 1 in R. unfold bind at 1 in R.
    destruct (outProductLabels t (map outLabel labs) (NStr (tagged "res" new)) h) as (h1 & [n|]) eqn:E; [|discriminate]. cbn [ret] in R.
    rewrite (map_ext _ _ outLabel_is) in E. destruct (out_represents h t items F labs new h1 n RP TL E) as (it1 & J1 & R1 & L1 & D1).
    destruct (IH h1 it1 h' R1 L1 R) as (it2 & J2 & R2 & L2 & D2). exists it2. split; [econstructor; eauto|]. rewrite <- D1. auto.
Qed.

Lemma names_represents (h h' : heap) t items F L f : represents h t items F -> only_names h h' L f ->
  represents h' t (combine (names_of h' t) (map snd items)) F.
Proof.
  intros [W RN RD RE] O.
  assert (Len : List.length (names_of h' t) = List.length (map snd items)).
  { unfold names_of. rewrite (only_names_legs _ _ _ _ _ O). pose proof (f_equal (@List.length _) RN) as X. unfold names_of in X. rewrite !map_length in *. auto. }
  assert (EF : map fst (combine (names_of h' t) (map snd items)) = names_of h' t) by (now apply map_fst_combine).
  assert (ES : map snd (combine (names_of h' t) (map snd items)) = map snd items) by (now apply map_snd_combine).
  assert (EG : forall {Y} (g : list role -> Y), map (fun it : item => g (snd it)) (combine (names_of h' t) (map snd items)) = map (fun it => g (snd it)) items).
  { intros Y g. transitivity (map g (map snd (combine (names_of h' t) (map snd items)))); [symmetry; apply map_map|]. rewrite ES. apply map_map. }
  apply Build_represents.
  - eapply only_names_wf; eauto.
  - symmetry. exact EF.
  - etransitivity; [|symmetry; apply (EG nat (fun rs => prodn (map (rdim h0) rs)))]. etransitivity; [|exact RD]. unfold dims_of. rewrite (only_names_legs _ _ _ _ _ O). apply map_ext. intros l. eapply only_names_dim; eauto.
  - intros s s' Bs E. pose proof (eq_trans E (EG nat (fun rs => ravel (map (rdim h0) rs) (map s rs)))) as E'. clear E. rename E' into E. rewrite (only_names_legs _ _ _ _ _ O) in E.
    unfold entry. rewrite (on_tens _ _ _ _ O). apply RE; auto. intros r Hr. apply Bs. apply in_flat_map in Hr as (it & Hit & Hr). apply (in_map snd) in Hit. rewrite <- ES in Hit. apply in_map_iff in Hit as (it' & E' & Hit'). apply in_flat_map. exists it'. split; auto. rewrite E'. exact Hr.
Qed.
Lemma renamed_comp g g' items : List.length (g (map fst items)) = List.length items ->
  renamed g' (renamed g items) = renamed (fun N => g' (g N)) items.
Proof.
  intros E. unfold renamed. assert (List.length (g (map fst items)) = List.length (map snd items)) by (now rewrite map_length).
  rewrite map_fst_combine, map_snd_combine by auto. reflexivity.
Qed.
Lemma replace_first_len {X} `{Dec X} (a b : X) l : List.length (replace_first a b l) = List.length l.
Proof. induction l as [|x l IH]; auto. simpl. destruct (dec a x); simpl; auto. Qed.
Lemma post_names_len after : forall N, List.length (post_names after N) = List.length N.
Proof.
  unfold post_names. induction after as [|[[t a] b] after IH]; intros N; auto. cbn [fold_left]. rewrite IH. apply replace_first_len.
Qed.
Lemma renamed_id items : renamed (fun N => N) items = items.
Proof. unfold renamed. induction items as [|[a b] l IH]; auto. simpl. now rewrite IH. Qed.
Lemma postNames_represents t F after : forall (h : heap) items h', represents h t items F -> postNames t after h = (h', Ok tt) ->
  represents h' t (renamed (post_names after) items) F.
Proof.
  induction after as [|[[nm a] b] after IH]; intros h items h' RP R.
  - injection R as <-. change (post_names []) with (fun N : list pname => N). rewrite (renamed_id items). exact RP.
  - unfold postNames in R. cbn [iterM] in R. unfold bind at 1 in R.
    destruct (renameLabel_ok h t (NStr (tagged nm a)) (NStr (tagged nm b))) as (h1 & L & E1 & O & _ & I & EN); [apply RP|]. rewrite E1 in R.
    pose proof (names_represents h h1 t items F L _ RP O) as R1. rewrite EN, (rp_names _ _ _ _ _ RP) in R1.
    specialize (IH h1 _ h' R1 R). change (combine ?x (map snd items)) with (renamed (replace_first (NStr (tagged nm a)) (NStr (tagged nm b))) items) in IH.
    rewrite renamed_comp in IH; [exact IH|]. now rewrite replace_first_len, map_length.
Qed.
Lemma postNames_tens t after : forall (h h' : heap), NoDup (legs_of h t) -> postNames t after h = (h', Ok tt) -> tens h' = tens h.
Proof.
  induction after as [|[[nm a] b] after IH]; intros h h' ND R.
  - now injection R as <-.
  - unfold postNames in R. cbn [iterM] in R. unfold bind at 1 in R.
    destruct (renameLabel_ok h t (NStr (tagged nm a)) (NStr (tagged nm b))) as (h1 & L & E1 & O & _); [exact ND|]. rewrite E1 in R.
    rewrite (IH h1 h'); [apply (on_tens _ _ _ _ O)| |exact R]. unfold legs_of. rewrite (on_tens _ _ _ _ O). exact ND.
Qed.
Lemma untag_tens t (h h' : heap) : NoDup (legs_of h t) -> removeTensorTag t h = (h', Ok tt) -> tens h' = tens h.
Proof. intros ND R. apply removeTensorTag_inv in R as O; [|exact ND]. apply (on_tens _ _ _ _ O). Qed.
Lemma untag_represents t F (h : heap) items h' : represents h t items F -> removeTensorTag t h = (h', Ok tt) -> represents h' t (renamed (map untag_name) items) F.
Proof.
  intros RP R. apply removeTensorTag_inv in R as O; [|apply RP]. pose proof (names_represents h h' t items F _ _ RP O) as R1.
  assert (EN : names_of h' t = map untag_name (names_of h t)).
  { unfold names_of. rewrite (only_names_legs _ _ _ _ _ O), map_map. apply map_ext_in. intros l Hl. now rewrite (on_in _ _ _ _ O) by auto. }
  rewrite EN, (rp_names _ _ _ _ _ RP) in R1. exact R1.
Qed.
End Post.
