(** The ready-made networks: what they are and what they compute. *)
From Coq Require Import List Arith Bool String Lia Permutation.
From Verif Require Import Base Sums NdModel HeapModel TensorModel TensorSpec NetSpec ContractModel SearchModel SearchSpec GraphModel NetGraphModel FtnModel FtnSpec FtnNetSpec
  NamedSpec NetsModel NetsSpec TensorProofs FtnProofs NamedProofs.
Import ListNotations.
Local Open Scope nat_scope.
Local Open Scope string_scope.
Local Open Scope list_scope.

Section Build.
Context {A : Type} {HA : SR A}.
Notation heap := (heap A).
Notation world := (world A).

(** being built: not locked and without a sequence *)
Definition building (w w' : world) f names links out after : Prop := made w w' f names links out after /\ f_locked (w_ftn w' f) = false.

Lemma makeFtn_ok (w : world) names : exists w', makeFtn names w = (w', Ok (w_nftn w)) /\ building w w' (w_nftn w) names [] [] [].
Proof.
  unfold makeFtn, wbind, newList, newFtn. cbn [w_heap w_names w_nnames w_ftn w_nftn]. eexists. split; [reflexivity|]. split; [|cbn [w_heap w_names w_nnames w_ftn w_nftn]; now rewrite upd_same]. split; cbn [w_heap w_names w_nnames w_ftn w_nftn]; auto.
  - split; unfold namesOf; cbn [w_heap w_names w_nnames w_ftn w_nftn]; rewrite ?upd_same; auto; cbn [f_names f_seq]; try discriminate; now rewrite ?upd_same.
  - rewrite upd_same. auto.
  - intros g Hg. now rewrite upd_other.
  - now rewrite upd_same.
  - split; auto. intros n Hn. rewrite upd_other; auto. lia.
Qed.
Lemma edit_ok (w w' : world) f names links out after r : building w w' f names links out after ->
  let w2 := mkWorld (w_heap w') (w_names w') (w_nnames w') (upd (w_ftn w') f r) (w_nftn w') in
  f_names r = f_names (w_ftn w' f) -> f_seq r = None -> f_locked r = false -> f_before r = [] ->
  forall links' out' after', f_links r = map stored links' -> f_out r = out' -> f_after r = after' -> building w w2 f names links' out' after'.
Proof.
  intros [[FI N H G OW L] LK] w2 E1 E2 E3 E4 links' out' after' E5 E6 E7. split; [|unfold w2; cbn [w_heap w_names w_nnames w_ftn w_nftn]; now rewrite upd_same]. split.
  - destruct FI as [G1 G2 G3 G4 G5 G6 G7]. unfold w2. split; unfold namesOf; cbn [w_ftn w_nftn w_names]; rewrite ?upd_same; auto.
    + rewrite E1. exact G2. + rewrite E2. discriminate.
  - unfold w2. cbn [w_heap w_names w_nnames w_ftn w_nftn]. rewrite upd_same. tauto.
  - exact H.
  - intros g Hg. unfold w2. cbn [w_heap w_names w_nnames w_ftn w_nftn]. rewrite upd_other; auto.
  - unfold w2. cbn [w_heap w_names w_nnames w_ftn w_nftn]. rewrite upd_same. congruence.
  - exact L.
Qed.
Lemma addLink_ok (w w' : world) f names links out after a la b lb : building w w' f names links out after ->
  exists w2, addLink f a la b lb w' = (w2, Ok tt) /\ building w w2 f names (links ++ [((a, la), (b, lb))]) out after.
Proof.
  intros B. pose proof B as [MA LK]. destruct (ma_is _ _ _ _ _ _ _ MA) as [G1 G2 G3 G4 G5 G6 G7]. unfold addLink, wbind. rewrite checkLock_cases, LK. unfold setF. eexists. split; [reflexivity|].
  eapply edit_ok; eauto; cbn; auto; try apply MA. rewrite G3, map_app. reflexivity.
Qed.
Lemma addPost_ok (w w' : world) f names links out after t a b : building w w' f names links out after ->
  exists w2, addPost f t a b w' = (w2, Ok tt) /\ building w w2 f names links out (after ++ [(t, a, b)]).
Proof.
  intros B. pose proof B as [MA LK]. destruct (ma_is _ _ _ _ _ _ _ MA) as [G1 G2 G3 G4 G5 G6 G7]. unfold addPost, wbind. rewrite checkLock_cases, LK. unfold setF. eexists. split; [reflexivity|].
  eapply edit_ok; eauto; cbn; auto; try apply MA. now rewrite G6.
Qed.
Lemma outP_ok (w w' : world) f names links out after labs new : building w w' f names links out after ->
  exists w2, outP f labs new w' = (w2, Ok tt) /\ building w w2 f names links (out ++ [(map NStr labs, new)]) after.
Proof.
  intros B. pose proof B as [MA LK]. destruct (ma_is _ _ _ _ _ _ _ MA) as [G1 G2 G3 G4 G5 G6 G7]. unfold outP, addOut, wbind. rewrite checkLock_cases, LK. unfold setF. eexists. split; [reflexivity|].
  eapply edit_ok; eauto; cbn; auto; try apply MA. now rewrite G5.
Qed.
Lemma wbind_ok {X Y} (m : @WM A X) (k : X -> @WM A Y) w w1 x : m w = (w1, Ok x) -> wbind m k w = k x w1.
Proof. unfold wbind. now intros ->. Qed.
End Build.

Ltac build_step B :=
  match type of B with building ?w ?w' ?f ?n ?l ?o ?a =>
    let w2 := fresh "w" in let E := fresh "E" in let B2 := fresh "B" in
    match goal with
    | |- context [wbind (addLink f ?x ?lx ?y ?ly) _ w'] => destruct (addLink_ok w w' f n l o a x lx y ly B) as (w2 & E & B2)
    | |- context [wbind (addPost f ?x ?lx ?ly) _ w'] => destruct (addPost_ok w w' f n l o a x lx ly B) as (w2 & E & B2)
    | |- context [wbind (outP f ?x ?lx) _ w'] => destruct (outP_ok w w' f n l o a x lx B) as (w2 & E & B2)
    end;
    rewrite (wbind_ok _ _ _ _ _ E); cbn [app] in B2; clear B E; rename B2 into B
  end.
Ltac build :=
  match goal with |- context [wbind (makeFtn ?names) _ ?w] =>
    let w1 := fresh "w" in let E := fresh "E" in let B := fresh "B" in
    destruct (makeFtn_ok w names) as (w1 & E & B); rewrite (wbind_ok _ _ _ _ _ E); clear E;
    repeat build_step B; unfold wret; eexists; split; [reflexivity|]; cbn [app map] in B; exact (proj1 B)
  end.

Section Made.
Context {A : Type} {HA : SR A}.
Notation heap := (heap A).
Notation world := (world A).
Lemma triangle_made (w : world) : exists w', triangleContractFTN w = (w', Ok (w_nftn w)) /\ made_net w w' (w_nftn w) triangle_net.
Proof. unfold triangleContractFTN. build. Qed.
Lemma square_made (w : world) : exists w', squareContractFTN w = (w', Ok (w_nftn w)) /\ made_net w w' (w_nftn w) square_net.
Proof. unfold squareContractFTN. build. Qed.
Lemma square_out_made (w : world) : exists w', squareContractOutFTN w = (w', Ok (w_nftn w)) /\ made_net w w' (w_nftn w) square_out_net.
Proof. unfold squareContractOutFTN. build. Qed.
Lemma hEdge_extend_made (w : world) : exists w', CTMRGHEdgeExtendFTN w = (w', Ok (w_nftn w)) /\ made_net w w' (w_nftn w) hEdge_extend_net.
Proof. unfold CTMRGHEdgeExtendFTN. build. Qed.
Lemma vEdge_extend_made (w : world) : exists w', CTMRGVEdgeExtendFTN w = (w', Ok (w_nftn w)) /\ made_net w w' (w_nftn w) vEdge_extend_net.
Proof. unfold CTMRGVEdgeExtendFTN. build. Qed.
Lemma corner_extend_made (w : world) : exists w', CTMRGCornerExtendFTN w = (w', Ok (w_nftn w)) /\ made_net w w' (w_nftn w) corner_extend_net.
Proof. unfold CTMRGCornerExtendFTN. build. Qed.
Lemma hEdge_build_made (w : world) : exists w', CTMRGHEdgeBuildFTN w = (w', Ok (w_nftn w)) /\ made_net w w' (w_nftn w) hEdge_build_net.
Proof. unfold CTMRGHEdgeBuildFTN. build. Qed.
Lemma vEdge_build_made (w : world) : exists w', CTMRGVEdgeBuildFTN w = (w', Ok (w_nftn w)) /\ made_net w w' (w_nftn w) vEdge_build_net.
Proof. unfold CTMRGVEdgeBuildFTN. build. Qed.
Lemma evenZ_made (w : world) : exists w', CTMRGEvenZFTN w = (w', Ok (w_nftn w)) /\ made_net w w' (w_nftn w) evenZ_net.
Proof. unfold CTMRGEvenZFTN. build. Qed.
Lemma oddZ_made (w : world) : exists w', CTMRGOddFTN w = (w', Ok (w_nftn w)) /\ made_net w w' (w_nftn w) oddZ_net.
Proof. unfold CTMRGOddFTN. build. Qed.
Lemma horizontal_l_made (w : world) : exists w', squareHorizontalContractFTN "l" w = (w', Ok (w_nftn w)) /\ made_net w w' (w_nftn w) horizontal_l_net.
Proof. unfold squareHorizontalContractFTN. rewrite (wbind_ok _ _ w w tt eq_refl), (wbind_ok _ _ w w "r" eq_refl). cbn [append]. build. Qed.
Lemma horizontal_r_made (w : world) : exists w', squareHorizontalContractFTN "r" w = (w', Ok (w_nftn w)) /\ made_net w w' (w_nftn w) horizontal_r_net.
Proof. unfold squareHorizontalContractFTN. rewrite (wbind_ok _ _ w w tt eq_refl), (wbind_ok _ _ w w "l" eq_refl). cbn [append]. build. Qed.
Lemma vertical_u_made (w : world) : exists w', squareVerticalContractFTN "u" w = (w', Ok (w_nftn w)) /\ made_net w w' (w_nftn w) vertical_u_net.
Proof. unfold squareVerticalContractFTN. rewrite (wbind_ok _ _ w w tt eq_refl), (wbind_ok _ _ w w "d" eq_refl). cbn [append]. build. Qed.
Lemma vertical_d_made (w : world) : exists w', squareVerticalContractFTN "d" w = (w', Ok (w_nftn w)) /\ made_net w w' (w_nftn w) vertical_d_net.
Proof. unfold squareVerticalContractFTN. rewrite (wbind_ok _ _ w w tt eq_refl), (wbind_ok _ _ w w "u" eq_refl). cbn [append]. build. Qed.
Lemma hotrg_h_made (w : world) : exists w', HOTRGHorizontalContractFTN w = (w', Ok (w_nftn w)) /\ made_net w w' (w_nftn w) hotrg_h_net.
Proof. unfold HOTRGHorizontalContractFTN. build. Qed.
Lemma hotrg_v_made (w : world) : exists w', HOTRGVerticalContractFTN w = (w', Ok (w_nftn w)) /\ made_net w w' (w_nftn w) hotrg_v_net.
Proof. unfold HOTRGVerticalContractFTN. build. Qed.
Lemma tnr_env_made (w : world) : exists w', EvenblyTNRQEnvFTN w = (w', Ok (w_nftn w)) /\ made_net w w' (w_nftn w) tnr_env_net.
Proof. unfold EvenblyTNRQEnvFTN. build. Qed.
End Made.

(** ** Checks on concrete names *)
Fixpoint nodupb {X} `{Dec X} (l : list X) : bool := match l with [] => true | x :: l' => negb (inb x l') && nodupb l' end.
Lemma nodupb_ok {X} `{Dec X} (l : list X) : nodupb l = true -> NoDup l.
Proof. induction l as [|x l IH]; simpl; intros E; constructor; apply andb_true_iff in E as [E1 E2]; auto. apply negb_true_iff in E1. now apply inb_false_iff. Qed.
Definition plinks_okb (links : list plink) : bool :=
  nodupb (map fst links ++ map snd links) && forallb (fun p => negb (if dec (fst (fst p)) (fst (snd p)) then true else false)) links.
Lemma plinks_okb_ok links : plinks_okb links = true -> plinks_ok links.
Proof.
  unfold plinks_okb. intros E. apply andb_true_iff in E as [E1 E2]. split; [now apply nodupb_ok|]. rewrite forallb_forall in E2. intros p Hp. specialize (E2 p Hp). cbv beta in E2.
  intros X. match type of E2 with negb (if ?c then _ else _) = _ => destruct c as [e|n] end; [discriminate E2|auto].
Qed.
Fixpoint distinct_joinb (I : list pitem) (os : list (list pname * string)) : bool :=
  nodupb (map fst I) && match os with [] => true | o :: os' => distinct_joinb (join I o) os' end.
Fixpoint distinct_renameb (I : list pitem) (es : list (string * string * string)) : bool :=
  nodupb (map fst I) && match es with [] => true | e :: es' => distinct_renameb (map (rename_item (rename1 e)) I) es' end.
Lemma distinct_joinb_ok os : forall I, distinct_joinb I os = true -> distinct_join I os.
Proof. induction os as [|o os IH]; intros I E; cbn [distinct_joinb] in E; apply andb_true_iff in E as [E1 E2]; split; auto; now apply nodupb_ok. Qed.
Lemma distinct_renameb_ok es : forall I, distinct_renameb I es = true -> distinct_rename I es.
Proof. induction es as [|e es IH]; intros I E; cbn [distinct_renameb] in E; apply andb_true_iff in E as [E1 E2]; split; auto; now apply nodupb_ok. Qed.
Definition checked (NL : list (string * list string)) links out after : bool :=
  nodupb (map fst NL) && plinks_okb links && distinct_joinb (free_items NL links) out && distinct_renameb (join_all (free_items NL links) out) after &&
  forallb (fun q => nodupb (snd q)) NL.

(** indices and dimensions by "tensor-leg" *)
Definition table (m : list (string * nat)) (p : port) : nat := look m 0 (fst p ++ "-" ++ snd p).

Section Value.
Context {A : Type} {HA : SR A}.
Notation heap := (heap A).
Notation world := (world A).
Variable symdiff : list nat -> list nat -> list nat.
Hypothesis Hsd : symdiff_ok symdiff.
Variable fuel : nat.

Lemma at_names_at (h : heap) t L g m : has_legs h t L -> (forall n, In n (map fst L) -> g (NStr n) = index_in m (NStr n)) -> at_names h t g = at_ h t m.
Proof.
  intros HL E. destruct (has_legs_order _ _ _ HL) as (m' & P & En & _). unfold at_, at_names. apply entry_ext. intros l Hl.
  assert (Hn : In (l_name (legs h l)) (names_of h t)) by (now apply (in_map (fun l => l_name (legs h l)))). rewrite En in Hn. apply in_map_iff in Hn. destruct Hn as (p & <- & Hp).
  apply E. apply in_map. eapply Permutation_in; eauto.
Qed.
Lemma dense_flags (h : heap) d : d <> [] -> (forall p, In p d -> dense h (snd p)) -> forallb (fun p : string * tid => t_diag (tens h (snd p))) d = false.
Proof. destruct d as [|p d]; [congruence|]. intros _ Hd. cbn [forallb]. now rewrite (proj2 (proj2 (Hd p (or_introl eq_refl)))). Qed.

(** the general result for dense tensors, with the conditions on names checked by computation *)
Lemma dense_value w f d b w' t names links out after D N : contract symdiff fuel f d b w = (w', Ok t) -> ftn_is w f names links out after -> d <> [] ->
  Forall2 (fun p q => fst p = fst q /\ dense_legs (w_heap w) (snd p) (map (fun n => (n, D (fst q, n))) (snd q))) d N ->
  checked N links out after = true ->
  dense (w_heap w') t /\ ftn_is w' f names links out after /\ has_value (w_heap w') t D (expected N links out after b) (psum D links (pprod (w_heap w) d)).
Proof.
  intros R FI Ne F2 CK. unfold checked in CK. rewrite !andb_true_iff in CK. destruct CK as [[[[C1 C2] C3] C4] C5].
  assert (EN : map fst d = map fst N) by (clear -F2; induction F2 as [|p q d N [E _] F IH]; simpl; congruence).
  assert (Hd : forall p, In p d -> dense (w_heap w) (snd p)).
  { clear -F2. induction F2 as [|p q d N (_ & DL) F IH]; [intros x []|]. intros x [<-|Hx]; auto. apply DL. }
  assert (HP : has_ports (w_heap w) D d N).
  { rewrite forallb_forall in C5. clear -F2 C5. induction F2 as [|p q d N (E & DL) F IH]; constructor.
    - repeat split; auto; [apply DL|]. apply nodupb_ok. apply C5. now left.
    - apply IH. intros x Hx. apply C5. now right. }
  destruct (contract_named symdiff Hsd fuel w f d b w' t names links out after D N R FI) as (HV & FI2 & FL & FD).
  - split; [|rewrite EN; now apply nodupb_ok]. intros p Hp. split; apply (Hd p Hp).
  - exact HP.
  - now apply plinks_okb_ok.
  - split; [now apply distinct_joinb_ok|now apply distinct_renameb_ok].
  - left. intros p Hp. apply (Hd p Hp).
  - split; [|split; auto]. split; [apply HV|]. split; auto. rewrite FD. now apply dense_flags.
Qed.
End Value.

Lemma sumN_cong {A} {HA : SR A} n n' (f g : nat -> A) : n = n' -> (forall i, i < n -> f i = g i) -> sumN n f = sumN n' g.
Proof. intros <- E. now apply sumN_ext. Qed.

Lemma mul_one_r {A} {HA : SR A} (x : A) : rmul x r1 = x.
Proof. rewrite rmul_comm. apply rmul_1_l. Qed.

(** the tactics below apply [dense_value] with tables of dimensions and indices and bring the result to the explicit form *)
Ltac enum_in Hp tac := cbn in Hp; repeat (destruct Hp as [<-|Hp]; [tac|]); destruct Hp.
Ltac ports := repeat (apply Forall2_cons; [split; [reflexivity|assumption]|]); apply Forall2_nil.
Ltac legs_goal HV := unfold has_legs; eapply Permutation_trans; [exact (hv_legs _ _ _ _ _ HV)|]; apply Permutation_refl'; cbv -[Nat.mul]; rewrite ?Nat.mul_1_r; reflexivity.
Ltac factor :=
  lazymatch goal with
  | |- at_names ?h ?t _ = at_ ?h ?t _ =>
    lazymatch goal with L : dense_legs h t _ |- _ => apply (at_names_at h t _ _ _ (proj2 L)); let n := fresh in let Hn := fresh in intros n Hn; enum_in Hn ltac:(vm_compute; reflexivity) end
  end.
Ltac factors :=
  cbn [pprod]; rewrite mul_one_r; rewrite ?rmul_assoc;
  repeat (apply (f_equal2 rmul); [|factor]); factor.
Ltac sums := cbn [psum]; repeat (apply sumN_cong; [reflexivity|]; let x := fresh "x" in let Hx := fresh "Hx" in intros x Hx).
Ltac entry_goal HV tab :=
  unfold at_ at 1; rewrite (hv_entry _ _ _ _ _ HV (table tab));
  [sums; factors
  |let p := fresh in let Hp := fresh in intros p Hp; enum_in Hp ltac:(cbn; assumption)
  |let p := fresh in let Hp := fresh in intros p Hp; enum_in Hp ltac:(cbv -[Nat.mul Nat.add]; lia)].
Ltac value HV DN FI2 :=
  match type of HV with has_value _ _ _ ?I _ => let I' := eval vm_compute in I in replace I with I' in HV by (vm_compute; reflexivity) end; split; [split; [exact DN|legs_goal HV]|split; [exact FI2|]].

Section Values.
Context {A : Type} {HA : SR A}.
Notation heap := (heap A).
Notation world := (world A).
Variable symdiff : list nat -> list nat -> list nat.
Hypothesis Hsd : symdiff_ok symdiff.
Variable fuel : nat.

Lemma triangle_value (w : world) f w' t t_u t_l t_r D1 D2 D3 E1 E2 E3 :
  contract symdiff fuel f [("u", t_u); ("l", t_l); ("r", t_r)] true w = (w', Ok t) -> is_net w f triangle_net ->
  dense_legs (w_heap w) t_u [("1", E1); ("2", D1); ("3", D2)] ->
  dense_legs (w_heap w) t_l [("1", E2); ("2", D3); ("3", D1)] ->
  dense_legs (w_heap w) t_r [("1", E3); ("2", D2); ("3", D3)] ->
  dense_legs (w_heap w') t [("1", E1); ("2", E2); ("3", E3)] /\ is_net w' f triangle_net /\
  forall i1 i2 i3, i1 < E1 -> i2 < E2 -> i3 < E3 -> 
    at_ (w_heap w') t [("1", i1); ("2", i2); ("3", i3)] =
    (sumN D1 (fun x1 => sumN D2 (fun x2 => sumN D3 (fun x3 =>
      at_ (w_heap w) t_u [("1", i1); ("2", x1); ("3", x2)] *
      at_ (w_heap w) t_l [("1", i2); ("2", x3); ("3", x1)] *
      at_ (w_heap w) t_r [("1", i3); ("2", x2); ("3", x3)]))))%sr.
Proof.
  unfold is_net. cbn [n_names n_links n_out n_after triangle_net]. intros R FI L1 L2 L3.
  set (D := table [("u-1", E1); ("u-2", D1); ("u-3", D2); ("l-1", E2); ("l-2", D3); ("l-3", D1); ("r-1", E3); ("r-2", D2); ("r-3", D3)]).
  destruct (dense_value symdiff Hsd fuel w f _ true w' t _ _ _ _ D [("u", ["1"; "2"; "3"]); ("l", ["1"; "2"; "3"]); ("r", ["1"; "2"; "3"])] R FI) as (DN & FI2 & HV).
  - discriminate.
  - ports.
  - vm_compute. reflexivity.
  - value HV DN FI2. intros i1 i2 i3 H1 H2 H3. entry_goal HV [("u-1", i1); ("l-1", i2); ("r-1", i3)].
Qed.
Lemma square_value (w : world) f w' t t_ul t_ur t_dr t_dl D1 D2 D3 D4 E1 E2 E3 E4 E5 E6 E7 E8 :
  contract symdiff fuel f [("ul", t_ul); ("ur", t_ur); ("dr", t_dr); ("dl", t_dl)] true w = (w', Ok t) -> is_net w f square_net ->
  dense_legs (w_heap w) t_ul [("u", E1); ("l", E2); ("d", D1); ("r", D2)] ->
  dense_legs (w_heap w) t_ur [("u", E3); ("l", D2); ("d", D3); ("r", E4)] ->
  dense_legs (w_heap w) t_dr [("u", D3); ("l", D4); ("d", E5); ("r", E6)] ->
  dense_legs (w_heap w) t_dl [("u", D1); ("l", E7); ("d", E8); ("r", D4)] ->
  dense_legs (w_heap w') t [("r", E4 * E6); ("d", E8 * E5); ("l", E2 * E7); ("u", E1 * E3)] /\ is_net w' f square_net /\
  forall i1 i2 i3 i4 i5 i6 i7 i8, i1 < E1 -> i2 < E2 -> i3 < E3 -> i4 < E4 -> i5 < E5 -> i6 < E6 -> i7 < E7 -> i8 < E8 -> 
    at_ (w_heap w') t [("r", i4 * E6 + i6); ("d", i8 * E5 + i5); ("l", i2 * E7 + i7); ("u", i1 * E3 + i3)] =
    (sumN D1 (fun x1 => sumN D2 (fun x2 => sumN D3 (fun x3 => sumN D4 (fun x4 =>
      at_ (w_heap w) t_ul [("u", i1); ("l", i2); ("d", x1); ("r", x2)] *
      at_ (w_heap w) t_ur [("u", i3); ("l", x2); ("d", x3); ("r", i4)] *
      at_ (w_heap w) t_dr [("u", x3); ("l", x4); ("d", i5); ("r", i6)] *
      at_ (w_heap w) t_dl [("u", x1); ("l", i7); ("d", i8); ("r", x4)])))))%sr.
Proof.
  unfold is_net. cbn [n_names n_links n_out n_after square_net]. intros R FI L1 L2 L3 L4.
  set (D := table [("ul-u", E1); ("ul-l", E2); ("ul-d", D1); ("ul-r", D2); ("ur-u", E3); ("ur-l", D2); ("ur-d", D3); ("ur-r", E4); ("dr-u", D3); ("dr-l", D4); ("dr-d", E5); ("dr-r", E6); ("dl-u", D1); ("dl-l", E7); ("dl-d", E8); ("dl-r", D4)]).
  destruct (dense_value symdiff Hsd fuel w f _ true w' t _ _ _ _ D [("ul", ["u"; "l"; "d"; "r"]); ("ur", ["u"; "l"; "d"; "r"]); ("dr", ["u"; "l"; "d"; "r"]); ("dl", ["u"; "l"; "d"; "r"])] R FI) as (DN & FI2 & HV).
  - discriminate.
  - ports.
  - vm_compute. reflexivity.
  - value HV DN FI2. intros i1 i2 i3 i4 i5 i6 i7 i8 H1 H2 H3 H4 H5 H6 H7 H8. entry_goal HV [("ul-u", i1); ("ul-l", i2); ("ur-u", i3); ("ur-r", i4); ("dr-d", i5); ("dr-r", i6); ("dl-l", i7); ("dl-d", i8)].
Qed.
Lemma square_out_value (w : world) f w' t t_ul t_ur t_dl t_dr D1 D2 D3 D4 E1 E2 E3 E4 :
  contract symdiff fuel f [("ul", t_ul); ("ur", t_ur); ("dl", t_dl); ("dr", t_dr)] true w = (w', Ok t) -> is_net w f square_out_net ->
  dense_legs (w_heap w) t_ul [("d", D1); ("r", D2); ("o", E1)] ->
  dense_legs (w_heap w) t_ur [("d", D3); ("l", D2); ("o", E2)] ->
  dense_legs (w_heap w) t_dl [("u", D1); ("r", D4); ("o", E3)] ->
  dense_legs (w_heap w) t_dr [("u", D3); ("l", D4); ("o", E4)] ->
  dense_legs (w_heap w') t [("u", E1); ("r", E2); ("l", E3); ("d", E4)] /\ is_net w' f square_out_net /\
  forall i1 i2 i3 i4, i1 < E1 -> i2 < E2 -> i3 < E3 -> i4 < E4 -> 
    at_ (w_heap w') t [("u", i1); ("r", i2); ("l", i3); ("d", i4)] =
    (sumN D1 (fun x1 => sumN D2 (fun x2 => sumN D3 (fun x3 => sumN D4 (fun x4 =>
      at_ (w_heap w) t_ul [("d", x1); ("r", x2); ("o", i1)] *
      at_ (w_heap w) t_ur [("d", x3); ("l", x2); ("o", i2)] *
      at_ (w_heap w) t_dl [("u", x1); ("r", x4); ("o", i3)] *
      at_ (w_heap w) t_dr [("u", x3); ("l", x4); ("o", i4)])))))%sr.
Proof.
  unfold is_net. cbn [n_names n_links n_out n_after square_out_net]. intros R FI L1 L2 L3 L4.
  set (D := table [("ul-d", D1); ("ul-r", D2); ("ul-o", E1); ("ur-d", D3); ("ur-l", D2); ("ur-o", E2); ("dl-u", D1); ("dl-r", D4); ("dl-o", E3); ("dr-u", D3); ("dr-l", D4); ("dr-o", E4)]).
  destruct (dense_value symdiff Hsd fuel w f _ true w' t _ _ _ _ D [("ul", ["d"; "r"; "o"]); ("ur", ["d"; "l"; "o"]); ("dl", ["u"; "r"; "o"]); ("dr", ["u"; "l"; "o"])] R FI) as (DN & FI2 & HV).
  - discriminate.
  - ports.
  - vm_compute. reflexivity.
  - value HV DN FI2. intros i1 i2 i3 i4 H1 H2 H3 H4. entry_goal HV [("ul-o", i1); ("ur-o", i2); ("dl-o", i3); ("dr-o", i4)].
Qed.
Lemma hEdge_extend_value (w : world) f w' t t_p t_w D1 E1 E2 E3 E4 E5 :
  contract symdiff fuel f [("p", t_p); ("w", t_w)] true w = (w', Ok t) -> is_net w f hEdge_extend_net ->
  dense_legs (w_heap w) t_p [("l", E1); ("r", E2); ("u", D1)] ->
  dense_legs (w_heap w) t_w [("u", E3); ("l", E4); ("d", D1); ("r", E5)] ->
  dense_legs (w_heap w') t [("r", E2 * E5); ("l", E1 * E4); ("u", E3)] /\ is_net w' f hEdge_extend_net /\
  forall i1 i2 i3 i4 i5, i1 < E1 -> i2 < E2 -> i3 < E3 -> i4 < E4 -> i5 < E5 -> 
    at_ (w_heap w') t [("r", i2 * E5 + i5); ("l", i1 * E4 + i4); ("u", i3)] =
    (sumN D1 (fun x1 =>
      at_ (w_heap w) t_p [("l", i1); ("r", i2); ("u", x1)] *
      at_ (w_heap w) t_w [("u", i3); ("l", i4); ("d", x1); ("r", i5)]))%sr.
Proof.
  unfold is_net. cbn [n_names n_links n_out n_after hEdge_extend_net]. intros R FI L1 L2.
  set (D := table [("p-l", E1); ("p-r", E2); ("p-u", D1); ("w-u", E3); ("w-l", E4); ("w-d", D1); ("w-r", E5)]).
  destruct (dense_value symdiff Hsd fuel w f _ true w' t _ _ _ _ D [("p", ["l"; "r"; "u"]); ("w", ["u"; "l"; "d"; "r"])] R FI) as (DN & FI2 & HV).
  - discriminate.
  - ports.
  - vm_compute. reflexivity.
  - value HV DN FI2. intros i1 i2 i3 i4 i5 H1 H2 H3 H4 H5. entry_goal HV [("p-l", i1); ("p-r", i2); ("w-u", i3); ("w-l", i4); ("w-r", i5)].
Qed.
Lemma vEdge_extend_value (w : world) f w' t t_p t_w D1 E1 E2 E3 E4 E5 :
  contract symdiff fuel f [("p", t_p); ("w", t_w)] true w = (w', Ok t) -> is_net w f vEdge_extend_net ->
  dense_legs (w_heap w) t_p [("u", E1); ("d", E2); ("r", D1)] ->
  dense_legs (w_heap w) t_w [("u", E3); ("l", D1); ("d", E4); ("r", E5)] ->
  dense_legs (w_heap w') t [("d", E2 * E4); ("u", E1 * E3); ("r", E5)] /\ is_net w' f vEdge_extend_net /\
  forall i1 i2 i3 i4 i5, i1 < E1 -> i2 < E2 -> i3 < E3 -> i4 < E4 -> i5 < E5 -> 
    at_ (w_heap w') t [("d", i2 * E4 + i4); ("u", i1 * E3 + i3); ("r", i5)] =
    (sumN D1 (fun x1 =>
      at_ (w_heap w) t_p [("u", i1); ("d", i2); ("r", x1)] *
      at_ (w_heap w) t_w [("u", i3); ("l", x1); ("d", i4); ("r", i5)]))%sr.
Proof.
  unfold is_net. cbn [n_names n_links n_out n_after vEdge_extend_net]. intros R FI L1 L2.
  set (D := table [("p-u", E1); ("p-d", E2); ("p-r", D1); ("w-u", E3); ("w-l", D1); ("w-d", E4); ("w-r", E5)]).
  destruct (dense_value symdiff Hsd fuel w f _ true w' t _ _ _ _ D [("p", ["u"; "d"; "r"]); ("w", ["u"; "l"; "d"; "r"])] R FI) as (DN & FI2 & HV).
  - discriminate.
  - ports.
  - vm_compute. reflexivity.
  - value HV DN FI2. intros i1 i2 i3 i4 i5 H1 H2 H3 H4 H5. entry_goal HV [("p-u", i1); ("p-d", i2); ("w-u", i3); ("w-d", i4); ("w-r", i5)].
Qed.
Lemma corner_extend_value (w : world) f w' t t_ph t_pv t_w t_c D1 D2 D3 D4 E1 E2 E3 E4 :
  contract symdiff fuel f [("ph", t_ph); ("pv", t_pv); ("w", t_w); ("c", t_c)] true w = (w', Ok t) -> is_net w f corner_extend_net ->
  dense_legs (w_heap w) t_ph [("l", D2); ("r", E1); ("u", D4)] ->
  dense_legs (w_heap w) t_pv [("u", E2); ("d", D1); ("r", D3)] ->
  dense_legs (w_heap w) t_w [("u", E3); ("l", D3); ("d", D4); ("r", E4)] ->
  dense_legs (w_heap w) t_c [("u", D1); ("r", D2)] ->
  dense_legs (w_heap w') t [("r", E1 * E4); ("u", E2 * E3)] /\ is_net w' f corner_extend_net /\
  forall i1 i2 i3 i4, i1 < E1 -> i2 < E2 -> i3 < E3 -> i4 < E4 -> 
    at_ (w_heap w') t [("r", i1 * E4 + i4); ("u", i2 * E3 + i3)] =
    (sumN D1 (fun x1 => sumN D2 (fun x2 => sumN D3 (fun x3 => sumN D4 (fun x4 =>
      at_ (w_heap w) t_ph [("l", x2); ("r", i1); ("u", x4)] *
      at_ (w_heap w) t_pv [("u", i2); ("d", x1); ("r", x3)] *
      at_ (w_heap w) t_w [("u", i3); ("l", x3); ("d", x4); ("r", i4)] *
      at_ (w_heap w) t_c [("u", x1); ("r", x2)])))))%sr.
Proof.
  unfold is_net. cbn [n_names n_links n_out n_after corner_extend_net]. intros R FI L1 L2 L3 L4.
  set (D := table [("ph-l", D2); ("ph-r", E1); ("ph-u", D4); ("pv-u", E2); ("pv-d", D1); ("pv-r", D3); ("w-u", E3); ("w-l", D3); ("w-d", D4); ("w-r", E4); ("c-u", D1); ("c-r", D2)]).
  destruct (dense_value symdiff Hsd fuel w f _ true w' t _ _ _ _ D [("ph", ["l"; "r"; "u"]); ("pv", ["u"; "d"; "r"]); ("w", ["u"; "l"; "d"; "r"]); ("c", ["u"; "r"])] R FI) as (DN & FI2 & HV).
  - discriminate.
  - ports.
  - vm_compute. reflexivity.
  - value HV DN FI2. intros i1 i2 i3 i4 H1 H2 H3 H4. entry_goal HV [("ph-r", i1); ("pv-u", i2); ("w-u", i3); ("w-r", i4)].
Qed.
Lemma hEdge_build_value (w : world) f w' t t_al t_ar t_p D1 D2 E1 E2 E3 :
  contract symdiff fuel f [("al", t_al); ("ar", t_ar); ("p", t_p)] true w = (w', Ok t) -> is_net w f hEdge_build_net ->
  dense_legs (w_heap w) t_al [("l", E1); ("r", D1)] ->
  dense_legs (w_heap w) t_ar [("l", E2); ("r", D2)] ->
  dense_legs (w_heap w) t_p [("l", D1); ("r", D2); ("u", E3)] ->
  dense_legs (w_heap w') t [("l", E1); ("r", E2); ("u", E3)] /\ is_net w' f hEdge_build_net /\
  forall i1 i2 i3, i1 < E1 -> i2 < E2 -> i3 < E3 -> 
    at_ (w_heap w') t [("l", i1); ("r", i2); ("u", i3)] =
    (sumN D1 (fun x1 => sumN D2 (fun x2 =>
      at_ (w_heap w) t_al [("l", i1); ("r", x1)] *
      at_ (w_heap w) t_ar [("l", i2); ("r", x2)] *
      at_ (w_heap w) t_p [("l", x1); ("r", x2); ("u", i3)])))%sr.
Proof.
  unfold is_net. cbn [n_names n_links n_out n_after hEdge_build_net]. intros R FI L1 L2 L3.
  set (D := table [("al-l", E1); ("al-r", D1); ("ar-l", E2); ("ar-r", D2); ("p-l", D1); ("p-r", D2); ("p-u", E3)]).
  destruct (dense_value symdiff Hsd fuel w f _ true w' t _ _ _ _ D [("al", ["l"; "r"]); ("ar", ["l"; "r"]); ("p", ["l"; "r"; "u"])] R FI) as (DN & FI2 & HV).
  - discriminate.
  - ports.
  - vm_compute. reflexivity.
  - value HV DN FI2. intros i1 i2 i3 H1 H2 H3. entry_goal HV [("al-l", i1); ("ar-l", i2); ("p-u", i3)].
Qed.
Lemma vEdge_build_value (w : world) f w' t t_au t_ad t_p D1 D2 E1 E2 E3 :
  contract symdiff fuel f [("au", t_au); ("ad", t_ad); ("p", t_p)] true w = (w', Ok t) -> is_net w f vEdge_build_net ->
  dense_legs (w_heap w) t_au [("u", D2); ("d", E1)] ->
  dense_legs (w_heap w) t_ad [("u", D1); ("d", E2)] ->
  dense_legs (w_heap w) t_p [("u", D2); ("d", D1); ("r", E3)] ->
  dense_legs (w_heap w') t [("u", E1); ("d", E2); ("r", E3)] /\ is_net w' f vEdge_build_net /\
  forall i1 i2 i3, i1 < E1 -> i2 < E2 -> i3 < E3 -> 
    at_ (w_heap w') t [("u", i1); ("d", i2); ("r", i3)] =
    (sumN D1 (fun x1 => sumN D2 (fun x2 =>
      at_ (w_heap w) t_au [("u", x2); ("d", i1)] *
      at_ (w_heap w) t_ad [("u", x1); ("d", i2)] *
      at_ (w_heap w) t_p [("u", x2); ("d", x1); ("r", i3)])))%sr.
Proof.
  unfold is_net. cbn [n_names n_links n_out n_after vEdge_build_net]. intros R FI L1 L2 L3.
  set (D := table [("au-u", D2); ("au-d", E1); ("ad-u", D1); ("ad-d", E2); ("p-u", D2); ("p-d", D1); ("p-r", E3)]).
  destruct (dense_value symdiff Hsd fuel w f _ true w' t _ _ _ _ D [("au", ["u"; "d"]); ("ad", ["u"; "d"]); ("p", ["u"; "d"; "r"])] R FI) as (DN & FI2 & HV).
  - discriminate.
  - ports.
  - vm_compute. reflexivity.
  - value HV DN FI2. intros i1 i2 i3 H1 H2 H3. entry_goal HV [("au-d", i1); ("ad-d", i2); ("p-r", i3)].
Qed.
Lemma evenZ_value (w : world) f w' t t_alu t_ald t_aru t_ard D1 D2 D3 D4 :
  contract symdiff fuel f [("alu", t_alu); ("ald", t_ald); ("aru", t_aru); ("ard", t_ard)] true w = (w', Ok t) -> is_net w f evenZ_net ->
  dense_legs (w_heap w) t_alu [("u", D1); ("r", D3)] ->
  dense_legs (w_heap w) t_ald [("u", D1); ("r", D4)] ->
  dense_legs (w_heap w) t_aru [("u", D2); ("r", D3)] ->
  dense_legs (w_heap w) t_ard [("u", D2); ("r", D4)] ->
  dense_legs (w_heap w') t [] /\ is_net w' f evenZ_net /\
  at_ (w_heap w') t [] =
    (sumN D1 (fun x1 => sumN D2 (fun x2 => sumN D3 (fun x3 => sumN D4 (fun x4 =>
      at_ (w_heap w) t_alu [("u", x1); ("r", x3)] *
      at_ (w_heap w) t_ald [("u", x1); ("r", x4)] *
      at_ (w_heap w) t_aru [("u", x2); ("r", x3)] *
      at_ (w_heap w) t_ard [("u", x2); ("r", x4)])))))%sr.
Proof.
  unfold is_net. cbn [n_names n_links n_out n_after evenZ_net]. intros R FI L1 L2 L3 L4.
  set (D := table [("alu-u", D1); ("alu-r", D3); ("ald-u", D1); ("ald-r", D4); ("aru-u", D2); ("aru-r", D3); ("ard-u", D2); ("ard-r", D4)]).
  destruct (dense_value symdiff Hsd fuel w f _ true w' t _ _ _ _ D [("alu", ["u"; "r"]); ("ald", ["u"; "r"]); ("aru", ["u"; "r"]); ("ard", ["u"; "r"])] R FI) as (DN & FI2 & HV).
  - discriminate.
  - ports.
  - vm_compute. reflexivity.
  - value HV DN FI2. entry_goal HV (@nil (string * nat)).
Qed.
Lemma oddZ_value (w : world) f w' t t_alu t_ald t_aru t_ard t_pl t_pr t_pd t_pu t_w D1 D2 D3 D4 D5 D6 D7 D8 D9 D10 D11 D12 :
  contract symdiff fuel f [("alu", t_alu); ("ald", t_ald); ("aru", t_aru); ("ard", t_ard); ("pl", t_pl); ("pr", t_pr); ("pd", t_pd); ("pu", t_pu); ("w", t_w)] true w = (w', Ok t) -> is_net w f oddZ_net ->
  dense_legs (w_heap w) t_alu [("u", D5); ("r", D1)] ->
  dense_legs (w_heap w) t_ald [("u", D6); ("r", D3)] ->
  dense_legs (w_heap w) t_aru [("u", D7); ("r", D2)] ->
  dense_legs (w_heap w) t_ard [("u", D8); ("r", D4)] ->
  dense_legs (w_heap w) t_pl [("u", D5); ("d", D6); ("r", D9)] ->
  dense_legs (w_heap w) t_pr [("u", D7); ("d", D8); ("r", D10)] ->
  dense_legs (w_heap w) t_pd [("l", D3); ("r", D4); ("u", D11)] ->
  dense_legs (w_heap w) t_pu [("l", D1); ("r", D2); ("u", D12)] ->
  dense_legs (w_heap w) t_w [("u", D12); ("l", D9); ("d", D11); ("r", D10)] ->
  dense_legs (w_heap w') t [] /\ is_net w' f oddZ_net /\
  at_ (w_heap w') t [] =
    (sumN D1 (fun x1 => sumN D2 (fun x2 => sumN D3 (fun x3 => sumN D4 (fun x4 => sumN D5 (fun x5 => sumN D6 (fun x6 => sumN D7 (fun x7 => sumN D8 (fun x8 => sumN D9 (fun x9 => sumN D10 (fun x10 => sumN D11 (fun x11 => sumN D12 (fun x12 =>
      at_ (w_heap w) t_alu [("u", x5); ("r", x1)] *
      at_ (w_heap w) t_ald [("u", x6); ("r", x3)] *
      at_ (w_heap w) t_aru [("u", x7); ("r", x2)] *
      at_ (w_heap w) t_ard [("u", x8); ("r", x4)] *
      at_ (w_heap w) t_pl [("u", x5); ("d", x6); ("r", x9)] *
      at_ (w_heap w) t_pr [("u", x7); ("d", x8); ("r", x10)] *
      at_ (w_heap w) t_pd [("l", x3); ("r", x4); ("u", x11)] *
      at_ (w_heap w) t_pu [("l", x1); ("r", x2); ("u", x12)] *
      at_ (w_heap w) t_w [("u", x12); ("l", x9); ("d", x11); ("r", x10)])))))))))))))%sr.
Proof.
  unfold is_net. cbn [n_names n_links n_out n_after oddZ_net]. intros R FI L1 L2 L3 L4 L5 L6 L7 L8 L9.
  set (D := table [("alu-u", D5); ("alu-r", D1); ("ald-u", D6); ("ald-r", D3); ("aru-u", D7); ("aru-r", D2); ("ard-u", D8); ("ard-r", D4); ("pl-u", D5); ("pl-d", D6); ("pl-r", D9); ("pr-u", D7); ("pr-d", D8); ("pr-r", D10); ("pd-l", D3); ("pd-r", D4); ("pd-u", D11); ("pu-l", D1); ("pu-r", D2); ("pu-u", D12); ("w-u", D12); ("w-l", D9); ("w-d", D11); ("w-r", D10)]).
  destruct (dense_value symdiff Hsd fuel w f _ true w' t _ _ _ _ D [("alu", ["u"; "r"]); ("ald", ["u"; "r"]); ("aru", ["u"; "r"]); ("ard", ["u"; "r"]); ("pl", ["u"; "d"; "r"]); ("pr", ["u"; "d"; "r"]); ("pd", ["l"; "r"; "u"]); ("pu", ["l"; "r"; "u"]); ("w", ["u"; "l"; "d"; "r"])] R FI) as (DN & FI2 & HV).
  - discriminate.
  - ports.
  - vm_compute. reflexivity.
  - value HV DN FI2. entry_goal HV (@nil (string * nat)).
Qed.
Lemma horizontal_l_value (w : world) f w' t t_ul t_ur t_dr t_dl D1 D2 D3 D4 D5 D6 E1 E2 E3 E4 :
  contract symdiff fuel f [("ul", t_ul); ("ur", t_ur); ("dr", t_dr); ("dl", t_dl)] true w = (w', Ok t) -> is_net w f horizontal_l_net ->
  dense_legs (w_heap w) t_ul [("u", D5); ("l", E1); ("d", D1); ("r", D2)] ->
  dense_legs (w_heap w) t_ur [("u", D5); ("l", E2); ("d", D3); ("r", D2)] ->
  dense_legs (w_heap w) t_dr [("u", D3); ("l", E3); ("d", D6); ("r", D4)] ->
  dense_legs (w_heap w) t_dl [("u", D1); ("l", E4); ("d", D6); ("r", D4)] ->
  dense_legs (w_heap w') t [("r", E2 * E3); ("l", E1 * E4)] /\ is_net w' f horizontal_l_net /\
  forall i1 i2 i3 i4, i1 < E1 -> i2 < E2 -> i3 < E3 -> i4 < E4 -> 
    at_ (w_heap w') t [("r", i2 * E3 + i3); ("l", i1 * E4 + i4)] =
    (sumN D1 (fun x1 => sumN D2 (fun x2 => sumN D3 (fun x3 => sumN D4 (fun x4 => sumN D5 (fun x5 => sumN D6 (fun x6 =>
      at_ (w_heap w) t_ul [("u", x5); ("l", i1); ("d", x1); ("r", x2)] *
      at_ (w_heap w) t_ur [("u", x5); ("l", i2); ("d", x3); ("r", x2)] *
      at_ (w_heap w) t_dr [("u", x3); ("l", i3); ("d", x6); ("r", x4)] *
      at_ (w_heap w) t_dl [("u", x1); ("l", i4); ("d", x6); ("r", x4)])))))))%sr.
Proof.
  unfold is_net. cbn [n_names n_links n_out n_after horizontal_l_net]. intros R FI L1 L2 L3 L4.
  set (D := table [("ul-u", D5); ("ul-l", E1); ("ul-d", D1); ("ul-r", D2); ("ur-u", D5); ("ur-l", E2); ("ur-d", D3); ("ur-r", D2); ("dr-u", D3); ("dr-l", E3); ("dr-d", D6); ("dr-r", D4); ("dl-u", D1); ("dl-l", E4); ("dl-d", D6); ("dl-r", D4)]).
  destruct (dense_value symdiff Hsd fuel w f _ true w' t _ _ _ _ D [("ul", ["u"; "l"; "d"; "r"]); ("ur", ["u"; "l"; "d"; "r"]); ("dr", ["u"; "l"; "d"; "r"]); ("dl", ["u"; "l"; "d"; "r"])] R FI) as (DN & FI2 & HV).
  - discriminate.
  - ports.
  - vm_compute. reflexivity.
  - value HV DN FI2. intros i1 i2 i3 i4 H1 H2 H3 H4. entry_goal HV [("ul-l", i1); ("ur-l", i2); ("dr-l", i3); ("dl-l", i4)].
Qed.
Lemma horizontal_r_value (w : world) f w' t t_ul t_ur t_dr t_dl D1 D2 D3 D4 D5 D6 E1 E2 E3 E4 :
  contract symdiff fuel f [("ul", t_ul); ("ur", t_ur); ("dr", t_dr); ("dl", t_dl)] true w = (w', Ok t) -> is_net w f horizontal_r_net ->
  dense_legs (w_heap w) t_ul [("u", D5); ("l", D2); ("d", D1); ("r", E1)] ->
  dense_legs (w_heap w) t_ur [("u", D5); ("l", D2); ("d", D3); ("r", E2)] ->
  dense_legs (w_heap w) t_dr [("u", D3); ("l", D4); ("d", D6); ("r", E3)] ->
  dense_legs (w_heap w) t_dl [("u", D1); ("l", D4); ("d", D6); ("r", E4)] ->
  dense_legs (w_heap w') t [("l", E1 * E4); ("r", E2 * E3)] /\ is_net w' f horizontal_r_net /\
  forall i1 i2 i3 i4, i1 < E1 -> i2 < E2 -> i3 < E3 -> i4 < E4 -> 
    at_ (w_heap w') t [("l", i1 * E4 + i4); ("r", i2 * E3 + i3)] =
    (sumN D1 (fun x1 => sumN D2 (fun x2 => sumN D3 (fun x3 => sumN D4 (fun x4 => sumN D5 (fun x5 => sumN D6 (fun x6 =>
      at_ (w_heap w) t_ul [("u", x5); ("l", x2); ("d", x1); ("r", i1)] *
      at_ (w_heap w) t_ur [("u", x5); ("l", x2); ("d", x3); ("r", i2)] *
      at_ (w_heap w) t_dr [("u", x3); ("l", x4); ("d", x6); ("r", i3)] *
      at_ (w_heap w) t_dl [("u", x1); ("l", x4); ("d", x6); ("r", i4)])))))))%sr.
Proof.
  unfold is_net. cbn [n_names n_links n_out n_after horizontal_r_net]. intros R FI L1 L2 L3 L4.
  set (D := table [("ul-u", D5); ("ul-l", D2); ("ul-d", D1); ("ul-r", E1); ("ur-u", D5); ("ur-l", D2); ("ur-d", D3); ("ur-r", E2); ("dr-u", D3); ("dr-l", D4); ("dr-d", D6); ("dr-r", E3); ("dl-u", D1); ("dl-l", D4); ("dl-d", D6); ("dl-r", E4)]).
  destruct (dense_value symdiff Hsd fuel w f _ true w' t _ _ _ _ D [("ul", ["u"; "l"; "d"; "r"]); ("ur", ["u"; "l"; "d"; "r"]); ("dr", ["u"; "l"; "d"; "r"]); ("dl", ["u"; "l"; "d"; "r"])] R FI) as (DN & FI2 & HV).
  - discriminate.
  - ports.
  - vm_compute. reflexivity.
  - value HV DN FI2. intros i1 i2 i3 i4 H1 H2 H3 H4. entry_goal HV [("ul-r", i1); ("ur-r", i2); ("dr-r", i3); ("dl-r", i4)].
Qed.
Lemma vertical_u_value (w : world) f w' t t_ul t_ur t_dr t_dl D1 D2 D3 D4 D5 D6 E1 E2 E3 E4 :
  contract symdiff fuel f [("ul", t_ul); ("ur", t_ur); ("dr", t_dr); ("dl", t_dl)] true w = (w', Ok t) -> is_net w f vertical_u_net ->
  dense_legs (w_heap w) t_ul [("u", E1); ("l", D5); ("d", D1); ("r", D2)] ->
  dense_legs (w_heap w) t_ur [("u", E2); ("l", D2); ("d", D3); ("r", D6)] ->
  dense_legs (w_heap w) t_dr [("u", E3); ("l", D4); ("d", D3); ("r", D6)] ->
  dense_legs (w_heap w) t_dl [("u", E4); ("l", D5); ("d", D1); ("r", D4)] ->
  dense_legs (w_heap w') t [("d", E4 * E3); ("u", E1 * E2)] /\ is_net w' f vertical_u_net /\
  forall i1 i2 i3 i4, i1 < E1 -> i2 < E2 -> i3 < E3 -> i4 < E4 -> 
    at_ (w_heap w') t [("d", i4 * E3 + i3); ("u", i1 * E2 + i2)] =
    (sumN D1 (fun x1 => sumN D2 (fun x2 => sumN D3 (fun x3 => sumN D4 (fun x4 => sumN D5 (fun x5 => sumN D6 (fun x6 =>
      at_ (w_heap w) t_ul [("u", i1); ("l", x5); ("d", x1); ("r", x2)] *
      at_ (w_heap w) t_ur [("u", i2); ("l", x2); ("d", x3); ("r", x6)] *
      at_ (w_heap w) t_dr [("u", i3); ("l", x4); ("d", x3); ("r", x6)] *
      at_ (w_heap w) t_dl [("u", i4); ("l", x5); ("d", x1); ("r", x4)])))))))%sr.
Proof.
  unfold is_net. cbn [n_names n_links n_out n_after vertical_u_net]. intros R FI L1 L2 L3 L4.
  set (D := table [("ul-u", E1); ("ul-l", D5); ("ul-d", D1); ("ul-r", D2); ("ur-u", E2); ("ur-l", D2); ("ur-d", D3); ("ur-r", D6); ("dr-u", E3); ("dr-l", D4); ("dr-d", D3); ("dr-r", D6); ("dl-u", E4); ("dl-l", D5); ("dl-d", D1); ("dl-r", D4)]).
  destruct (dense_value symdiff Hsd fuel w f _ true w' t _ _ _ _ D [("ul", ["u"; "l"; "d"; "r"]); ("ur", ["u"; "l"; "d"; "r"]); ("dr", ["u"; "l"; "d"; "r"]); ("dl", ["u"; "l"; "d"; "r"])] R FI) as (DN & FI2 & HV).
  - discriminate.
  - ports.
  - vm_compute. reflexivity.
  - value HV DN FI2. intros i1 i2 i3 i4 H1 H2 H3 H4. entry_goal HV [("ul-u", i1); ("ur-u", i2); ("dr-u", i3); ("dl-u", i4)].
Qed.
Lemma vertical_d_value (w : world) f w' t t_ul t_ur t_dr t_dl D1 D2 D3 D4 D5 D6 E1 E2 E3 E4 :
  contract symdiff fuel f [("ul", t_ul); ("ur", t_ur); ("dr", t_dr); ("dl", t_dl)] true w = (w', Ok t) -> is_net w f vertical_d_net ->
  dense_legs (w_heap w) t_ul [("u", D1); ("l", D5); ("d", E1); ("r", D2)] ->
  dense_legs (w_heap w) t_ur [("u", D3); ("l", D2); ("d", E2); ("r", D6)] ->
  dense_legs (w_heap w) t_dr [("u", D3); ("l", D4); ("d", E3); ("r", D6)] ->
  dense_legs (w_heap w) t_dl [("u", D1); ("l", D5); ("d", E4); ("r", D4)] ->
  dense_legs (w_heap w') t [("u", E1 * E2); ("d", E4 * E3)] /\ is_net w' f vertical_d_net /\
  forall i1 i2 i3 i4, i1 < E1 -> i2 < E2 -> i3 < E3 -> i4 < E4 -> 
    at_ (w_heap w') t [("u", i1 * E2 + i2); ("d", i4 * E3 + i3)] =
    (sumN D1 (fun x1 => sumN D2 (fun x2 => sumN D3 (fun x3 => sumN D4 (fun x4 => sumN D5 (fun x5 => sumN D6 (fun x6 =>
      at_ (w_heap w) t_ul [("u", x1); ("l", x5); ("d", i1); ("r", x2)] *
      at_ (w_heap w) t_ur [("u", x3); ("l", x2); ("d", i2); ("r", x6)] *
      at_ (w_heap w) t_dr [("u", x3); ("l", x4); ("d", i3); ("r", x6)] *
      at_ (w_heap w) t_dl [("u", x1); ("l", x5); ("d", i4); ("r", x4)])))))))%sr.
Proof.
  unfold is_net. cbn [n_names n_links n_out n_after vertical_d_net]. intros R FI L1 L2 L3 L4.
  set (D := table [("ul-u", D1); ("ul-l", D5); ("ul-d", E1); ("ul-r", D2); ("ur-u", D3); ("ur-l", D2); ("ur-d", E2); ("ur-r", D6); ("dr-u", D3); ("dr-l", D4); ("dr-d", E3); ("dr-r", D6); ("dl-u", D1); ("dl-l", D5); ("dl-d", E4); ("dl-r", D4)]).
  destruct (dense_value symdiff Hsd fuel w f _ true w' t _ _ _ _ D [("ul", ["u"; "l"; "d"; "r"]); ("ur", ["u"; "l"; "d"; "r"]); ("dr", ["u"; "l"; "d"; "r"]); ("dl", ["u"; "l"; "d"; "r"])] R FI) as (DN & FI2 & HV).
  - discriminate.
  - ports.
  - vm_compute. reflexivity.
  - value HV DN FI2. intros i1 i2 i3 i4 H1 H2 H3 H4. entry_goal HV [("ul-d", i1); ("ur-d", i2); ("dr-d", i3); ("dl-d", i4)].
Qed.
Lemma hotrg_h_value (w : world) f w' t t_u t_d t_l t_r D1 D2 D3 D4 D5 E1 E2 E3 E4 :
  contract symdiff fuel f [("u", t_u); ("d", t_d); ("l", t_l); ("r", t_r)] true w = (w', Ok t) -> is_net w f hotrg_h_net ->
  dense_legs (w_heap w) t_u [("u", E1); ("l", D1); ("d", D5); ("r", D2)] ->
  dense_legs (w_heap w) t_d [("u", D5); ("l", D3); ("d", E2); ("r", D4)] ->
  dense_legs (w_heap w) t_l [("u", D1); ("d", D3); ("o", E3)] ->
  dense_legs (w_heap w) t_r [("u", D2); ("d", D4); ("o", E4)] ->
  dense_legs (w_heap w') t [("u", E1); ("d", E2); ("l", E3); ("r", E4)] /\ is_net w' f hotrg_h_net /\
  forall i1 i2 i3 i4, i1 < E1 -> i2 < E2 -> i3 < E3 -> i4 < E4 -> 
    at_ (w_heap w') t [("u", i1); ("d", i2); ("l", i3); ("r", i4)] =
    (sumN D1 (fun x1 => sumN D2 (fun x2 => sumN D3 (fun x3 => sumN D4 (fun x4 => sumN D5 (fun x5 =>
      at_ (w_heap w) t_u [("u", i1); ("l", x1); ("d", x5); ("r", x2)] *
      at_ (w_heap w) t_d [("u", x5); ("l", x3); ("d", i2); ("r", x4)] *
      at_ (w_heap w) t_l [("u", x1); ("d", x3); ("o", i3)] *
      at_ (w_heap w) t_r [("u", x2); ("d", x4); ("o", i4)]))))))%sr.
Proof.
  unfold is_net. cbn [n_names n_links n_out n_after hotrg_h_net]. intros R FI L1 L2 L3 L4.
  set (D := table [("u-u", E1); ("u-l", D1); ("u-d", D5); ("u-r", D2); ("d-u", D5); ("d-l", D3); ("d-d", E2); ("d-r", D4); ("l-u", D1); ("l-d", D3); ("l-o", E3); ("r-u", D2); ("r-d", D4); ("r-o", E4)]).
  destruct (dense_value symdiff Hsd fuel w f _ true w' t _ _ _ _ D [("u", ["u"; "l"; "d"; "r"]); ("d", ["u"; "l"; "d"; "r"]); ("l", ["u"; "d"; "o"]); ("r", ["u"; "d"; "o"])] R FI) as (DN & FI2 & HV).
  - discriminate.
  - ports.
  - vm_compute. reflexivity.
  - value HV DN FI2. intros i1 i2 i3 i4 H1 H2 H3 H4. entry_goal HV [("u-u", i1); ("d-d", i2); ("l-o", i3); ("r-o", i4)].
Qed.
Lemma hotrg_v_value (w : world) f w' t t_u t_d t_l t_r D1 D2 D3 D4 D5 E1 E2 E3 E4 :
  contract symdiff fuel f [("u", t_u); ("d", t_d); ("l", t_l); ("r", t_r)] true w = (w', Ok t) -> is_net w f hotrg_v_net ->
  dense_legs (w_heap w) t_u [("l", D1); ("r", D2); ("o", E1)] ->
  dense_legs (w_heap w) t_d [("l", D3); ("r", D4); ("o", E2)] ->
  dense_legs (w_heap w) t_l [("u", D1); ("l", E3); ("d", D3); ("r", D5)] ->
  dense_legs (w_heap w) t_r [("u", D2); ("l", D5); ("d", D4); ("r", E4)] ->
  dense_legs (w_heap w') t [("u", E1); ("d", E2); ("l", E3); ("r", E4)] /\ is_net w' f hotrg_v_net /\
  forall i1 i2 i3 i4, i1 < E1 -> i2 < E2 -> i3 < E3 -> i4 < E4 -> 
    at_ (w_heap w') t [("u", i1); ("d", i2); ("l", i3); ("r", i4)] =
    (sumN D1 (fun x1 => sumN D2 (fun x2 => sumN D3 (fun x3 => sumN D4 (fun x4 => sumN D5 (fun x5 =>
      at_ (w_heap w) t_u [("l", x1); ("r", x2); ("o", i1)] *
      at_ (w_heap w) t_d [("l", x3); ("r", x4); ("o", i2)] *
      at_ (w_heap w) t_l [("u", x1); ("l", i3); ("d", x3); ("r", x5)] *
      at_ (w_heap w) t_r [("u", x2); ("l", x5); ("d", x4); ("r", i4)]))))))%sr.
Proof.
  unfold is_net. cbn [n_names n_links n_out n_after hotrg_v_net]. intros R FI L1 L2 L3 L4.
  set (D := table [("u-l", D1); ("u-r", D2); ("u-o", E1); ("d-l", D3); ("d-r", D4); ("d-o", E2); ("l-u", D1); ("l-l", E3); ("l-d", D3); ("l-r", D5); ("r-u", D2); ("r-l", D5); ("r-d", D4); ("r-r", E4)]).
  destruct (dense_value symdiff Hsd fuel w f _ true w' t _ _ _ _ D [("u", ["l"; "r"; "o"]); ("d", ["l"; "r"; "o"]); ("l", ["u"; "l"; "d"; "r"]); ("r", ["u"; "l"; "d"; "r"])] R FI) as (DN & FI2 & HV).
  - discriminate.
  - ports.
  - vm_compute. reflexivity.
  - value HV DN FI2. intros i1 i2 i3 i4 H1 H2 H3 H4. entry_goal HV [("u-o", i1); ("d-o", i2); ("l-l", i3); ("r-r", i4)].
Qed.
Lemma tnr_env_value (w : world) f w' t t_uul t_uur t_udl t_udr t_dul t_dur t_ddl t_ddr D1 D2 D3 D4 D5 D6 D7 D8 D9 D10 D11 D12 D13 D14 E1 E2 E3 E4 :
  contract symdiff fuel f [("uul", t_uul); ("uur", t_uur); ("udl", t_udl); ("udr", t_udr); ("dul", t_dul); ("dur", t_dur); ("ddl", t_ddl); ("ddr", t_ddr)] true w = (w', Ok t) -> is_net w f tnr_env_net ->
  dense_legs (w_heap w) t_uul [("u", E1); ("l", E2); ("d", D12); ("r", D11)] ->
  dense_legs (w_heap w) t_uur [("u", D8); ("l", D7); ("d", D9); ("r", D11)] ->
  dense_legs (w_heap w) t_udl [("u", D12); ("l", D5); ("d", D2); ("r", D1)] ->
  dense_legs (w_heap w) t_udr [("u", D9); ("l", D5); ("d", D4); ("r", D3)] ->
  dense_legs (w_heap w) t_dul [("u", D14); ("l", D6); ("d", D2); ("r", D1)] ->
  dense_legs (w_heap w) t_dur [("u", D10); ("l", D6); ("d", D4); ("r", D3)] ->
  dense_legs (w_heap w) t_ddl [("u", E3); ("l", E4); ("d", D14); ("r", D13)] ->
  dense_legs (w_heap w) t_ddr [("u", D8); ("l", D7); ("d", D10); ("r", D13)] ->
  dense_legs (w_heap w') t [("2", E4 * E3); ("1", E2 * E1)] /\ is_net w' f tnr_env_net /\
  forall i1 i2 i3 i4, i1 < E1 -> i2 < E2 -> i3 < E3 -> i4 < E4 -> 
    at_ (w_heap w') t [("2", i4 * E3 + i3); ("1", i2 * E1 + i1)] =
    (sumN D1 (fun x1 => sumN D2 (fun x2 => sumN D3 (fun x3 => sumN D4 (fun x4 => sumN D5 (fun x5 => sumN D6 (fun x6 => sumN D7 (fun x7 => sumN D8 (fun x8 => sumN D9 (fun x9 => sumN D10 (fun x10 => sumN D11 (fun x11 => sumN D12 (fun x12 => sumN D13 (fun x13 => sumN D14 (fun x14 =>
      at_ (w_heap w) t_uul [("u", i1); ("l", i2); ("d", x12); ("r", x11)] *
      at_ (w_heap w) t_uur [("u", x8); ("l", x7); ("d", x9); ("r", x11)] *
      at_ (w_heap w) t_udl [("u", x12); ("l", x5); ("d", x2); ("r", x1)] *
      at_ (w_heap w) t_udr [("u", x9); ("l", x5); ("d", x4); ("r", x3)] *
      at_ (w_heap w) t_dul [("u", x14); ("l", x6); ("d", x2); ("r", x1)] *
      at_ (w_heap w) t_dur [("u", x10); ("l", x6); ("d", x4); ("r", x3)] *
      at_ (w_heap w) t_ddl [("u", i3); ("l", i4); ("d", x14); ("r", x13)] *
      at_ (w_heap w) t_ddr [("u", x8); ("l", x7); ("d", x10); ("r", x13)])))))))))))))))%sr.
Proof.
  unfold is_net. cbn [n_names n_links n_out n_after tnr_env_net]. intros R FI L1 L2 L3 L4 L5 L6 L7 L8.
  set (D := table [("uul-u", E1); ("uul-l", E2); ("uul-d", D12); ("uul-r", D11); ("uur-u", D8); ("uur-l", D7); ("uur-d", D9); ("uur-r", D11); ("udl-u", D12); ("udl-l", D5); ("udl-d", D2); ("udl-r", D1); ("udr-u", D9); ("udr-l", D5); ("udr-d", D4); ("udr-r", D3); ("dul-u", D14); ("dul-l", D6); ("dul-d", D2); ("dul-r", D1); ("dur-u", D10); ("dur-l", D6); ("dur-d", D4); ("dur-r", D3); ("ddl-u", E3); ("ddl-l", E4); ("ddl-d", D14); ("ddl-r", D13); ("ddr-u", D8); ("ddr-l", D7); ("ddr-d", D10); ("ddr-r", D13)]).
  destruct (dense_value symdiff Hsd fuel w f _ true w' t _ _ _ _ D [("uul", ["u"; "l"; "d"; "r"]); ("uur", ["u"; "l"; "d"; "r"]); ("udl", ["u"; "l"; "d"; "r"]); ("udr", ["u"; "l"; "d"; "r"]); ("dul", ["u"; "l"; "d"; "r"]); ("dur", ["u"; "l"; "d"; "r"]); ("ddl", ["u"; "l"; "d"; "r"]); ("ddr", ["u"; "l"; "d"; "r"])] R FI) as (DN & FI2 & HV).
  - discriminate.
  - ports.
  - vm_compute. reflexivity.
  - value HV DN FI2. intros i1 i2 i3 i4 H1 H2 H3 H4. entry_goal HV [("uul-u", i1); ("uul-l", i2); ("ddl-u", i3); ("ddl-l", i4)].
Qed.
End Values.

(** ** Checking the hypotheses on concrete tensors *)
Section Check.
Context {A : Type} {HA : SR A}.
Definition dense_legsb (h : heap A) (t : tid) (m : list (string * nat)) : bool :=
  Nat.ltb t (ntens h) && nodupb (legs_of h t) && forallb (fun l => Nat.ltb l (nleg h)) (legs_of h t) &&
  negb (t_like (tens h t)) && negb (t_diag (tens h t)) &&
  match t_arr (tens h t) with
  | Some a => Nat.eqb (List.length (adata a)) (prodn (ashape a)) && (if dec (ashape a) (map (dim_of h) (legs_of h t)) then true else false)
  | None => false end &&
  (if dec (names_of h t) (map (fun p => NStr (fst p)) m) then true else false) && (if dec (dims_of h t) (map snd m) then true else false).
Lemma dense_legsb_ok (h : heap A) t m : dense_legsb h t m = true -> dense_legs h t m.
Proof.
  unfold dense_legsb. rewrite !andb_true_iff, !negb_true_iff. intros [[[[[[[C1 C2] C3] C4] C5] C6] C7] C8].
  destruct (dec (names_of h t) _) as [EN|]; [|discriminate]. destruct (dec (dims_of h t) _) as [ED|]; [|discriminate].
  destruct (t_arr (tens h t)) as [a|] eqn:EA; [|discriminate]. apply andb_true_iff in C6 as [C6 C6']. destruct (dec (ashape a) _) as [ES|]; [|discriminate].
  apply Nat.ltb_lt in C1. apply Nat.eqb_eq in C6. rewrite forallb_forall in C3. split.
  - split; [|auto]. split; auto.
    + now apply nodupb_ok. + intros l Hl. apply Nat.ltb_lt. now apply C3.
    + unfold data_ok. rewrite C4, EA, C5. split; auto.
    + rewrite C5. discriminate.
  - unfold has_legs. rewrite EN, ED. apply Permutation_refl'. clear. induction m as [|[n k] m IH]; simpl; congruence.
Qed.
End Check.

Lemma networks_made A :
  (forall w : world A, exists w', triangleContractFTN w = (w', Ok (w_nftn w)) /\ made_net w w' (w_nftn w) triangle_net) /\
  (forall w : world A, exists w', squareContractFTN w = (w', Ok (w_nftn w)) /\ made_net w w' (w_nftn w) square_net) /\
  (forall w : world A, exists w', squareContractOutFTN w = (w', Ok (w_nftn w)) /\ made_net w w' (w_nftn w) square_out_net) /\
  (forall w : world A, exists w', CTMRGHEdgeExtendFTN w = (w', Ok (w_nftn w)) /\ made_net w w' (w_nftn w) hEdge_extend_net) /\
  (forall w : world A, exists w', CTMRGVEdgeExtendFTN w = (w', Ok (w_nftn w)) /\ made_net w w' (w_nftn w) vEdge_extend_net) /\
  (forall w : world A, exists w', CTMRGCornerExtendFTN w = (w', Ok (w_nftn w)) /\ made_net w w' (w_nftn w) corner_extend_net) /\
  (forall w : world A, exists w', CTMRGHEdgeBuildFTN w = (w', Ok (w_nftn w)) /\ made_net w w' (w_nftn w) hEdge_build_net) /\
  (forall w : world A, exists w', CTMRGVEdgeBuildFTN w = (w', Ok (w_nftn w)) /\ made_net w w' (w_nftn w) vEdge_build_net) /\
  (forall w : world A, exists w', CTMRGEvenZFTN w = (w', Ok (w_nftn w)) /\ made_net w w' (w_nftn w) evenZ_net) /\
  (forall w : world A, exists w', CTMRGOddFTN w = (w', Ok (w_nftn w)) /\ made_net w w' (w_nftn w) oddZ_net) /\
  (forall w : world A, exists w', squareHorizontalContractFTN "l" w = (w', Ok (w_nftn w)) /\ made_net w w' (w_nftn w) horizontal_l_net) /\
  (forall w : world A, exists w', squareHorizontalContractFTN "r" w = (w', Ok (w_nftn w)) /\ made_net w w' (w_nftn w) horizontal_r_net) /\
  (forall w : world A, exists w', squareVerticalContractFTN "u" w = (w', Ok (w_nftn w)) /\ made_net w w' (w_nftn w) vertical_u_net) /\
  (forall w : world A, exists w', squareVerticalContractFTN "d" w = (w', Ok (w_nftn w)) /\ made_net w w' (w_nftn w) vertical_d_net) /\
  (forall w : world A, exists w', HOTRGHorizontalContractFTN w = (w', Ok (w_nftn w)) /\ made_net w w' (w_nftn w) hotrg_h_net) /\
  (forall w : world A, exists w', HOTRGVerticalContractFTN w = (w', Ok (w_nftn w)) /\ made_net w w' (w_nftn w) hotrg_v_net) /\
  (forall w : world A, exists w', EvenblyTNRQEnvFTN w = (w', Ok (w_nftn w)) /\ made_net w w' (w_nftn w) tnr_env_net).
Proof.
  repeat match goal with |- _ /\ _ => split end.
  - apply triangle_made.
  - apply square_made.
  - apply square_out_made.
  - apply hEdge_extend_made.
  - apply vEdge_extend_made.
  - apply corner_extend_made.
  - apply hEdge_build_made.
  - apply vEdge_build_made.
  - apply evenZ_made.
  - apply oddZ_made.
  - apply horizontal_l_made.
  - apply horizontal_r_made.
  - apply vertical_u_made.
  - apply vertical_d_made.
  - apply hotrg_h_made.
  - apply hotrg_v_made.
  - apply tnr_env_made.
Qed.

(** ** Directions, and other networks *)
Lemma opposite_single x y : oppositeSingleDirection x = Ok y -> oppositeSingleDirection y = Ok x /\ y <> x /\ In x ["l"; "r"; "u"; "d"] /\ (In x ["l"; "r"] <-> In y ["l"; "r"]).
Proof.
  unfold oppositeSingleDirection, assertInSet. destruct (inb x _) eqn:E; [|discriminate]. apply inb_iff in E. cbn [In] in *.
  destruct E as [<-|[<-|[<-|[<-|[]]]]]; cbn; intros [= <-]; cbn; repeat split; auto; try discriminate; intuition discriminate.
Qed.
Lemma opposite_rejects x : ~ In x ["l"; "r"; "u"; "d"] -> oppositeSingleDirection x = Err AssertionError.
Proof. intros N. unfold oppositeSingleDirection, assertInSet. now apply inb_false_iff in N as ->. Qed.
Lemma opposite_word x : forall y, oppositeDirection x = Ok y -> oppositeDirection y = Ok x /\ String.length y = String.length x.
Proof.
  induction x as [|c x IH]; cbn [oppositeDirection]; intros y E; [injection E as <-; auto|].
  destruct (oppositeSingleDirection (String c "")) as [y1|] eqn:E1; [|discriminate]. cbn [rbind] in E. destruct (oppositeDirection x) as [r|]; [|discriminate]. cbn [rbind] in E. injection E as <-.
  destruct (IH r eq_refl) as [E2 E3]. pose proof (opposite_single _ _ E1) as (E4 & _).
  destruct y1 as [|c1 [|c2 y1]]; [vm_compute in E4; discriminate|cbn [append oppositeDirection String.length]; now rewrite E4, E2, E3|].
  exfalso. unfold oppositeSingleDirection, assertInSet in E4. destruct (inb _ _) eqn:EI in E4; [|discriminate]. apply inb_iff in EI. cbn in EI. intuition discriminate.
Qed.
Lemma horizontal_rejects A (w : world A) d : ~ In d ["l"; "r"] -> squareHorizontalContractFTN d w = (w, Err AssertionError).
Proof. intros N. unfold squareHorizontalContractFTN, wbind at 1, wliftR at 1, assertInSet. now apply inb_false_iff in N as ->. Qed.
Lemma vertical_rejects A (w : world A) d : ~ In d ["u"; "d"] -> squareVerticalContractFTN d w = (w, Err AssertionError).
Proof. intros N. unfold squareVerticalContractFTN, wbind at 1, wliftR at 1, assertInSet. now apply inb_false_iff in N as ->. Qed.

Lemma is_net_same A (w w' : world A) f N : is_net w f N -> w_ftn w' f = w_ftn w f -> (forall n, n < w_nnames w \/ n = f_names (w_ftn w f) -> w_names w' n = w_names w n) -> f < w_nftn w' -> is_net w' f N.
Proof. intros [G1 G2 G3 G4 G5 G6 G7] E EN Hf. unfold is_net. split; unfold namesOf in *; rewrite ?E; auto. rewrite EN; auto. Qed.
Lemma is_net_other A (HA : SR A) symdiff fuel (w : world A) f g d b N : is_net w f N -> g <> f -> is_net (fst (contract symdiff fuel g d b w)) f N.
Proof.
  intros FI Hg. destruct (contract_kept symdiff fuel g d b w) as (K1 & K2 & K3 & K4 & _). eapply is_net_same; eauto. - now rewrite K1. - rewrite K3. apply FI.
Qed.
Lemma is_net_heap A (w : world A) f N h : is_net w f N -> is_net (@mkWorld A h (w_names w) (w_nnames w) (w_ftn w) (w_nftn w)) f N.
Proof. intros FI. eapply is_net_same; eauto. apply FI. Qed.
Lemma is_net_kept A (HA : SR A) symdiff fuel (w : world A) f N : is_net w f N ->
  (forall g d b, g <> f -> is_net (fst (contract symdiff fuel g d b w)) f N) /\
  (forall h, is_net (@mkWorld A h (w_names w) (w_nnames w) (w_ftn w) (w_nftn w)) f N).
Proof. intros FI. split; [intros; now apply is_net_other|intros; now apply is_net_heap]. Qed.
