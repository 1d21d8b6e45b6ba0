(** Proofs about runs of the higher-order tensor renormalization group. *)
From Coq Require Import List Arith Bool String Lia Permutation.
From Verif Require Import Base Sums NdModel NdProofs NamedProofs HeapModel FuncsModel TensorModel TensorSpec TensorProofs MatrixProofs CtorProofs CopyProofs ContractModel SvdModel SvdSpec SvdProofs CanonModel
  SearchSpec NetSpec FtnModel FtnNetSpec FtnFrameProofs NamedSpec NetsModel NetsSpec NetsProofs TorusSpec DoubleSpec TrgModel TrgSpec SumpairsProofs TorusProofs TorusIsoProofs DoubleProofs NamedMatProofs TrgProofs HotrgModel HotrgSpec HotrgProofs DoubleGridProofs.
Import ListNotations.
Local Open Scope nat_scope.
Local Open Scope string_scope.
Local Open Scope list_scope.

Section Run.
Context {A B : Type} {HA : SR A}.
Notation heap := (heap A).
Notation world := (world A).
Notation hotrg := (hotrg A).
Variable symdiff : list nat -> list nat -> list nat.
Hypothesis Hsd : symdiff_ok symdiff.
Variable fuel : nat.
Variable num : numerics A B.
Variable eig : eigen A.
Add Ring Aringh3 : (@SR_theory A HA).

(** ** The constructor *)
Definition known (w : world) (x : nat) (X : net) : Prop := is_net w x X /\ f_names (w_ftn w x) < w_nnames w.
Lemma known_made (w w' : world) x X f N : known w x X -> made_net w w' f N -> known w' x X.
Proof.
  intros [I K] [MI (E1 & E2 & E3) MH MN MO (ML1 & ML2)]. assert (Hx : x < w_nftn w) by apply I. assert (EX : w_ftn w' x = w_ftn w x) by (apply MN; lia). split.
  - eapply is_net_same; [exact I|exact EX| |lia]. intros n [Hn| ->]; apply ML2; auto.
  - rewrite EX, ML1. lia.
Qed.
Lemma made_known (w w' : world) f N : made_net w w' f N -> known w' f N.
Proof. intros [MI MN _ _ MO (ML & _)]. split; [exact MI|rewrite MO, ML; lia]. Qed.
Lemma own_ok (h h1 : heap) x p dof V H T : ownTensor x h = (h1, Ok p) -> given h x dof V H T ->
  snd p = dof /\ square h1 (fst p) V H /\ grown h h1 /\ fst p = ntens h /\ forall u l d r, u < V -> l < H -> d < V -> r < H -> entry4 h1 (fst p) u l d r = T u l d r.
Proof.
  intros R1 GV. destruct GV as [t dof V H Q|a V H W S]; unfold ownTensor in R1.
  - destruct (copy_named h t _ Q) as (h2 & c & E & NT & D & G). unfold bind in R1. rewrite E in R1. injection R1 as <- <-. cbn [fst snd]. split; auto. split; auto. split; [now apply (new_grown _ _ _ NT)|]. split; [apply NT|].
    intros. apply G.
  - unfold makeSquareTensor, bind at 1 2 in R1. rewrite S in R1. cbn [List.length Nat.eqb assert] in R1. unfold ret at 1 in R1.
    destruct (mkDense None _ (Some a) None None false h) as (h2 & [t|e]) eqn:E; [|discriminate]. injection R1 as <- <-. cbn [fst snd].
    destruct (new_data _ ["u"; "l"; "d"; "r"] _ _ _ W E) as (NT & D & G); [now apply nodupb_ok|]. rewrite S in D, G. split; auto. split; [exact D|]. split; [now apply (new_grown _ _ _ NT)|]. split; [apply NT|].
    intros u l d r Hu Hl Hd Hr. apply (G [u; l; d; r]). repeat (constructor; [assumption|]). constructor.
Qed.
Lemma initH_ok (w w' : world) x chiH chiV dof V H T g : newHotrg num (Some x) chiH chiV w = (w', Ok g) -> given (w_heap w) x dof V H T ->
  exists n c, hstate w' g V H /\ o_chiH g = chiH /\ o_chiV g = (match chiV with Some c => c | None => chiH end) /\ o_dof g = dof /\
    o_norms g = [n] /\ o_errors g = [] /\ o_archive g = [(c, dof)] /\ o_choices g = [] /\ o_projs g = [] /\
    normalized num (w_heap w') (o_a g) n /\ archived (w_heap w') (o_a g) c V H /\ grown (w_heap w) (w_heap w') /\
    forall u l d r, u < V -> l < H -> d < V -> r < H -> entry4 (w_heap w') (o_a g) u l d r = nu_div num (T u l d r) n.
Proof.
  intros R GV. unfold newHotrg in R.
  destruct (hotrg_h_made w) as (w1 & E1 & M1). rewrite (wbind_ok _ _ _ _ _ E1) in R. pose proof (made_known _ _ _ _ M1) as K1.
  destruct (hotrg_v_made w1) as (w2 & E2 & M2). rewrite (wbind_ok _ _ _ _ _ E2) in R. pose proof (made_known _ _ _ _ M2) as K2. apply (known_made _ _ _ _ _ _) with (2 := M2) in K1.
  destruct (horizontal_l_made w2) as (w3 & E3 & M3). rewrite (wbind_ok _ _ _ _ _ E3) in R. pose proof (made_known _ _ _ _ M3) as K3. apply (known_made _ _ _ _ _ _) with (2 := M3) in K1. apply (known_made _ _ _ _ _ _) with (2 := M3) in K2.
  destruct (horizontal_r_made w3) as (w4 & E4 & M4). rewrite (wbind_ok _ _ _ _ _ E4) in R. pose proof (made_known _ _ _ _ M4) as K4. apply (known_made _ _ _ _ _ _) with (2 := M4) in K1. apply (known_made _ _ _ _ _ _) with (2 := M4) in K2. apply (known_made _ _ _ _ _ _) with (2 := M4) in K3.
  destruct (vertical_u_made w4) as (w5 & E5 & M5). rewrite (wbind_ok _ _ _ _ _ E5) in R. pose proof (made_known _ _ _ _ M5) as K5. apply (known_made _ _ _ _ _ _) with (2 := M5) in K1. apply (known_made _ _ _ _ _ _) with (2 := M5) in K2. apply (known_made _ _ _ _ _ _) with (2 := M5) in K3. apply (known_made _ _ _ _ _ _) with (2 := M5) in K4.
  destruct (vertical_d_made w5) as (w6 & E6 & M6). rewrite (wbind_ok _ _ _ _ _ E6) in R. pose proof (made_known _ _ _ _ M6) as K6. apply (known_made _ _ _ _ _ _) with (2 := M6) in K1. apply (known_made _ _ _ _ _ _) with (2 := M6) in K2. apply (known_made _ _ _ _ _ _) with (2 := M6) in K3. apply (known_made _ _ _ _ _ _) with (2 := M6) in K4. apply (known_made _ _ _ _ _ _) with (2 := M6) in K5.
  assert (S1 := ma_new _ _ _ _ _ _ _ M1). assert (S2 := ma_new _ _ _ _ _ _ _ M2). assert (S3 := ma_new _ _ _ _ _ _ _ M3). assert (S4 := ma_new _ _ _ _ _ _ _ M4). assert (S5 := ma_new _ _ _ _ _ _ _ M5).
  assert (EH : w_heap w6 = w_heap w) by (rewrite (ma_heap _ _ _ _ _ _ _ M6), (ma_heap _ _ _ _ _ _ _ M5), (ma_heap _ _ _ _ _ _ _ M4), (ma_heap _ _ _ _ _ _ _ M3), (ma_heap _ _ _ _ _ _ _ M2); apply (ma_heap _ _ _ _ _ _ _ M1)).
  apply wbind_inv in R. destruct R as (w7 & p & R7 & R). apply lift_inv in R7. destruct R7 as (h7 & R7 & ->). rewrite EH in R7. destruct (own_ok _ _ _ _ _ _ _ _ R7 GV) as (ED & Q & G1 & EI & EV).
  apply (appendH_ok num _ _ _ _ V H) in R; [|exact Q]. cbn [o_a o_dof o_chiH o_chiV o_hi o_vi o_hl o_hr o_vu o_vd o_norms o_errors o_archive o_choices o_projs with_heap w_names w_nnames w_ftn w_nftn w_heap app] in R.
  destruct R as (n & c & -> & F1 & F2 & F3 & F4 & Q' & NZ & AR & G' & V'). exists n, c. cbn [o_a o_dof o_chiH o_chiV o_hi o_vi o_hl o_hr o_vu o_vd o_norms o_errors o_archive o_choices o_projs app] in *.
  split; [|repeat (split; [reflexivity || assumption|])].
  - split; [|exact Q']. assert (K : forall y Y, known w6 y Y -> is_net w' y Y) by (intros y Y [I _]; eapply is_net_same; [exact I|now rewrite F3|intros; now rewrite F1|rewrite F4; apply I]).
    split; cbn [o_hi o_vi o_hl o_hr o_vu o_vd]; auto. destruct S1 as (_ & S1 & _), S2 as (_ & S2 & _), S3 as (_ & S3 & _), S4 as (_ & S4 & _), S5 as (_ & S5 & _).
    rewrite S5, S4, S3, S2, S1. clear. repeat constructor; cbn [In]; lia.
  - split; [now rewrite ED|]. repeat (split; [reflexivity || assumption|]). split; [apply G'; [exact G1|lia]|]. intros. rewrite V' by auto. now rewrite EV.
Qed.

(** ** One step *)
Local Open Scope sr_scope.
Lemma one_stepH (w w' : world) (g g' : hotrg) V H d : iterateH symdiff fuel num eig g w = (w', Ok g') -> hstate w g V H -> eigh_ok eig (w_heap w) g V H -> o_choices g' = o_choices g ++ [d] ->
  let k := proj_dim eig (w_heap w) g V H d in let c := (cut d V H * cut d V H)%nat in let m := env_of (w_heap w) g V H d in
  lossless_projector (kept d V H) (cut d V H) k (turn d (entry4 (w_heap w) (o_a g))) (proj eig m c) (proj_conj eig num m c) ->
  exists n, o_norms g' = o_norms g ++ [n] /\ forall L, torus L -> invertible num n ->
    partition (double d L) H V (fun _ => entry4 (w_heap w) (o_a g)) = pow n (List.length (sites L)) * partition L (newH d H k) (newV d V k) (fun _ => entry4 (w_heap w') (o_a g')).
Proof.
  intros R ST EO EC k c m LL. destruct (iterateH_ok symdiff Hsd fuel num eig w w' g g' V H R ST EO) as (d' & P & a & n & cc & Hd & _ & -> & _ & _ & _ & _ & _ & _ & _ & EV). cbn [o_choices o_norms o_a] in *.
  apply app_inv_head in EC. injection EC as ->. exists n. split; [reflexivity|]. intros L TL IN. rewrite <- (fuse_step L d _ _ _ V H k TL Hd LL).
  rewrite <- partition_scale. apply partition_range; [exact TL|]. intros x u l dd r _ Hu Hl Hdd Hr. rewrite EV by assumption. rewrite (rmul_comm n). now rewrite IN.
Qed.
Lemma run_stateH w0 g0 V0 H0 ds w g V H : exact_runH eig num symdiff fuel w0 g0 V0 H0 ds w g V H -> hstate w0 g0 V0 H0 ->
  exists ns es ar ps, hstate w g V H /\ o_norms g = o_norms g0 ++ ns /\ o_errors g = o_errors g0 ++ es /\ o_archive g = o_archive g0 ++ ar /\ o_choices g = o_choices g0 ++ ds /\ o_projs g = o_projs g0 ++ ps /\
    List.length ns = List.length ds /\ List.length es = List.length ds /\ List.length ar = List.length ds /\ List.length ps = List.length ds /\ o_dof g = (2 ^ List.length ds * o_dof g0)%nat /\
    o_chiH g = o_chiH g0 /\ o_chiV g = o_chiV g0 /\ (forall d, In d ds -> In d dirs) /\ grown (w_heap w0) (w_heap w).
Proof.
  intros RN ST. induction RN as [|ds w g V H d w' g' RN IH R EO EC LL].
  - exists [], [], [], []. rewrite !app_nil_r. repeat (split; [assumption || reflexivity|]). split; [cbn; lia|]. repeat (split; [assumption || reflexivity|]). split; [intros d []|apply grown_refl].
  - destruct IH as (ns & es & ar & ps & ST' & I1 & I2 & I3 & I4 & I5 & L1 & L2 & L3 & L4 & DF & CH & CV & DS & GR).
    destruct (iterateH_ok symdiff Hsd fuel num eig w w' g g' V H R ST' EO) as (d' & P & a & n & cc & Hd & _ & EG & _ & _ & _ & ST2 & _ & _ & G2 & _). assert (EC' := EC). rewrite EG in EC'. cbn [o_choices] in EC'. apply app_inv_head in EC'. injection EC' as ->.
    exists (ns ++ [n]), (es ++ [err_of eig num (w_heap w) g V H d]), (ar ++ [(cc, (2 * o_dof g)%nat)]), (ps ++ [P]). split; [exact ST2|]. rewrite EG. cbn [o_norms o_errors o_archive o_choices o_projs o_dof o_chiH o_chiV].
    rewrite I1, I2, I3, I4, I5, !app_assoc. repeat (split; [reflexivity|]). rewrite !app_length. cbn [List.length]. repeat (split; [lia|]). split; [rewrite DF, Nat.pow_add_r; cbn; lia|].
    split; [exact CH|]. split; [exact CV|]. split; [|eapply grown_trans; eauto]. intros x Hx. apply in_app_or in Hx. destruct Hx as [Hx|[<-|[]]]; auto.
Qed.
Lemma run_valueH w0 g0 V0 H0 ds w g V H : exact_runH eig num symdiff fuel w0 g0 V0 H0 ds w g V H -> hstate w0 g0 V0 H0 ->
  exists ns, o_norms g = o_norms g0 ++ ns /\ List.length ns = List.length ds /\ forall L, torus L -> (forall x, In x ns -> invertible num x) ->
    partition (fine ds L) H0 V0 (fun _ => entry4 (w_heap w0) (o_a g0)) = pow (norm_product ns) (List.length (sites L)) * partition L H V (fun _ => entry4 (w_heap w) (o_a g)).
Proof.
  intros RN ST. induction RN as [|ds w g V H d w' g' RN IH R EO EC LL].
  - exists []. rewrite app_nil_r. split; [reflexivity|]. split; auto. intros L _ _. cbn [fine norm_product]. assert (E : pow (A := A) 1 (List.length (sites L)) = 1) by (induction (List.length (sites L)) as [|m E]; cbn; [auto|rewrite E; ring]). rewrite E. ring.
  - destruct IH as (ns & EN & LN & IH). destruct (run_stateH _ _ _ _ _ _ _ _ _ RN ST) as (_ & _ & _ & _ & ST' & _). destruct (one_stepH w w' g g' V H d R ST' EO EC LL) as (n & En & X).
    exists (ns ++ [n]). split; [now rewrite En, EN, app_assoc|]. split; [rewrite !app_length; cbn; lia|]. intros L TL IN. rewrite fine_snoc.
    rewrite (IH (double d L)) by (first [now apply double_torus|intros x Hx; apply IN, in_or_app; auto]). rewrite X by (first [exact TL|apply IN, in_or_app; cbn; auto]). rewrite norm_product_snoc, double_size.
    rewrite !pow_mul. replace (2 * List.length (sites L))%nat with (List.length (sites L) + List.length (sites L))%nat by lia. rewrite pow_add. ring.
Qed.
Lemma pow_fine {L : lattice} (x : A) ds : pow x (List.length (sites (fine ds L))) = pow (pow x (2 ^ List.length ds)) (List.length (sites L)).
Proof. now rewrite pow_pow, fine_size. Qed.
Theorem hotrg_value w w0 wn x chiH chiV dof V0 H0 T g0 g ds V H L : newHotrg num (Some x) chiH chiV w = (w0, Ok g0) -> given (w_heap w) x dof V0 H0 T ->
  exact_runH eig num symdiff fuel w0 g0 V0 H0 ds wn g V H -> (forall x, In x (o_norms g) -> invertible num x) -> torus L ->
  List.length (o_norms g) = S (List.length ds) /\ partition (fine ds L) H0 V0 (fun _ => T) = pow (norm_product (o_norms g)) (List.length (sites L)) * partition L H V (fun _ => entry4 (w_heap wn) (o_a g)).
Proof.
  intros R0 GV RN IN TL. destruct (initH_ok _ _ _ _ _ _ _ _ _ _ R0 GV) as (n0 & c & ST & _ & _ & _ & N0 & _ & _ & _ & _ & _ & _ & _ & EV).
  destruct (run_valueH _ _ _ _ _ _ _ _ _ RN ST) as (ns & EN & LN & X). rewrite N0 in EN. cbn [app] in EN. rewrite EN in *. split; [cbn; lia|].
  specialize (X L TL (fun y Hy => IN y (or_intror Hy))). cbn [norm_product]. rewrite pow_mul, LN. rewrite <- rmul_assoc, <- X, <- pow_fine, <- partition_scale.
  apply partition_range; [now apply fine_torus|]. intros q u l d r _ Hu Hl Hd Hr. rewrite EV by auto. rewrite rmul_comm. symmetry. apply (IN n0). now left.
Qed.
Theorem hotrg_archive w w0 wn x chiH chiV dof V0 H0 T g0 g ds V H : newHotrg num (Some x) chiH chiV w = (w0, Ok g0) -> given (w_heap w) x dof V0 H0 T ->
  exact_runH eig num symdiff fuel w0 g0 V0 H0 ds wn g V H -> (forall x, In x (o_norms g) -> invertible num x) ->
  List.length (o_archive g) = S (List.length ds) /\ forall i, (i <= List.length ds)%nat -> exists c Vi Hi, nth_error (o_archive g) i = Some (c, 2 ^ i * dof)%nat /\ square (w_heap wn) c Vi Hi /\
    forall L, torus L -> partition (fine (firstn i ds) L) H0 V0 (fun _ => T) = pow (norm_product (firstn (S i) (o_norms g))) (List.length (sites L)) * partition L Hi Vi (fun _ => entry4 (w_heap wn) c).
Proof.
  intros R0 GV RN. destruct (initH_ok _ _ _ _ _ _ _ _ _ _ R0 GV) as (n0 & c0 & ST & _ & _ & DF0 & N0 & _ & A0 & _ & _ & _ & AR0 & _ & EV).
  induction RN as [|ds w1 g V H d w' g' RN IH R EO EC LL]; intros IN.
  - rewrite A0. split; [reflexivity|]. intros i Hi. assert (i = 0)%nat as -> by (cbn in Hi; lia).
    destruct AR0 as (_ & Qc & ECc). exists c0, V0, H0. split; [cbn; now rewrite Nat.add_0_r|]. split; [exact Qc|]. intros L TL.
    destruct (hotrg_value _ _ _ _ _ _ _ _ _ _ _ _ [] _ _ L R0 GV (eh_start _ _ _ _ _ _ _ _) IN TL) as (_ & X). cbn [firstn]. rewrite X, N0. f_equal. apply partition_range; [exact TL|]. intros. now rewrite ECc.
  - destruct (run_stateH _ _ _ _ _ _ _ _ _ RN ST) as (ns & es & ar & ps & ST' & I1 & _ & I3 & _ & _ & L1 & _ & L3 & _ & DF & _). rewrite N0 in I1. rewrite A0 in I3.
    destruct (iterateH_ok symdiff Hsd fuel num eig w1 w' g g' V H R ST' EO) as (d' & P & a & n & cc & Hd & _ & EG & _ & _ & _ & ST2 & _ & AR & G2 & _). assert (EC' := EC). rewrite EG in EC'. cbn [o_choices] in EC'. apply app_inv_head in EC'. injection EC' as ->.
    assert (EA : o_archive g' = o_archive g ++ [(cc, (2 * o_dof g)%nat)]) by (now rewrite EG). assert (EN : o_norms g' = o_norms g ++ [n]) by now rewrite EG.
    destruct IH as (LA & IH). { intros y Hy. apply IN. rewrite EN. apply in_or_app. auto. }
    assert (LN : List.length (o_norms g) = S (List.length ds)) by (rewrite I1; cbn; lia).
    rewrite EA. split; [rewrite !app_length, LA; cbn; lia|]. intros i Hi. rewrite app_length in Hi. cbn [List.length] in Hi. destruct (Nat.eq_dec i (S (List.length ds))) as [->|NE].
    + destruct AR as (_ & Qc & ECc). eexists cc, _, _. split; [|split; [exact Qc|]].
      * rewrite nth_error_app2 by lia. rewrite LA, Nat.sub_diag. cbn [nth_error]. f_equal. f_equal. rewrite DF, DF0. cbn. lia.
      * intros L TL. assert (RN' := eh_step _ _ _ _ _ _ _ _ _ _ _ _ _ _ _ _ RN R EO EC LL). rewrite (firstn_all2 (ds ++ [d])) by (rewrite app_length; cbn; lia). rewrite (firstn_all2 (o_norms g')) by (rewrite EN, app_length; cbn; lia).
        destruct (hotrg_value _ _ _ _ _ _ _ _ _ _ _ _ (ds ++ [d]) _ _ L R0 GV RN' IN TL) as (_ & X). rewrite X. f_equal. apply partition_range; [exact TL|]. intros. rewrite ECc, EG. reflexivity.
    + destruct (IH i) as (ci & Vi & Hi' & Ei & Qi & Xi); [lia|]. destruct (grown_dense _ _ _ _ G2 Qi) as (Qi' & Vali & _). exists ci, Vi, Hi'. split; [rewrite nth_error_app1 by lia; exact Ei|]. split; [exact Qi'|].
      intros L TL. rewrite (firstn_app i ds). replace (i - List.length ds)%nat with 0%nat by lia. cbn [firstn]. rewrite app_nil_r, Xi by auto. f_equal; [|apply partition_range; [exact TL|]; intros; unfold entry4; now rewrite Vali].
      rewrite EN. change (match o_norms g ++ [n] with [] => [] | a0 :: l => a0 :: firstn i l end) with (firstn (S i) (o_norms g ++ [n])). rewrite firstn_app. replace (S i - List.length (o_norms g))%nat with 0%nat by lia. rewrite firstn_O, app_nil_r. reflexivity.
Qed.
Theorem hotrg_density pos w w0 wn x chiH chiV dof V0 H0 T g0 g ds V H : log_ok num pos -> newHotrg num (Some x) chiH chiV w = (w0, Ok g0) -> given (w_heap w) x dof V0 H0 T ->
  exact_runH eig num symdiff fuel w0 g0 V0 H0 ds wn g V H -> (forall x, In x (o_norms g) -> invertible num x /\ pos x) ->
  (forall c d v, In (c, d) (o_archive g) -> trace (w_heap wn) c (Some [RStr "u"; RStr "l"]) (Some [RStr "d"; RStr "r"]) = Ok v -> pos v) ->
  exists xs, logZDensityH num (w_heap wn) g = Ok xs /\ List.length xs = S (List.length ds) /\
    forall i, (i <= List.length ds)%nat -> nth_error xs i = Some (nu_share num (nu_log num (partition (fine (firstn i ds) (grid 1 1)) H0 V0 (fun _ => T))) (2 ^ i * dof)).
Proof.
  intros LOG R0 GV RN IN PT. destruct (hotrg_archive _ _ _ _ _ _ _ _ _ _ _ _ _ _ _ R0 GV RN (fun y Hy => proj1 (IN y Hy))) as (LA & X).
  destruct (hotrg_value _ _ _ _ _ _ _ _ _ _ _ _ _ _ _ (grid 1 1) R0 GV RN (fun y Hy => proj1 (IN y Hy)) (grid_torus 1 1)) as (LN & _).
  unfold logZDensityH. set (ar := o_archive g) in *. set (ns := o_norms g) in *. clearbody ar ns.
  assert (SQ : forall i y, nth_error ar i = Some y -> snd y = (2 ^ i * dof)%nat /\ exists Vi Hi, square (w_heap wn) (fst y) Vi Hi /\ pos (partition (grid 1 1) Hi Vi (fun _ => entry4 (w_heap wn) (fst y)))).
  { intros i y Ey. assert (Hi : (i < List.length ar)%nat) by (apply nth_error_Some; congruence). destruct (X i) as (c & Vi & Hi' & Ei & Q & _); [lia|]. rewrite Ey in Ei. injection Ei as ->. cbn [fst snd]. split; auto. exists Vi, Hi'. split; auto.
    eapply PT; [eapply nth_error_In; eauto|]. now apply square_trace. }
  destruct ns as [|n0 ns]; [discriminate|]. destruct ar as [|[c0 d0] ar]; [discriminate|].
  destruct (SQ 0%nat _ eq_refl) as (ED0 & Va & Ha & Q0 & P0). cbn [fst snd] in ED0, Q0, P0. cbn [Nat.pow] in ED0. rewrite Nat.mul_1_l in ED0. subst d0.
  cbn [logZAux]. rewrite (square_trace _ _ _ _ Q0). cbn [rbind]. rewrite (lo_zero _ _ LOG).
  assert (NP : norm_product [n0] = n0) by (cbn; ring).
  destruct (logz_aux num (w_heap wn) pos dof LOG ar ns [n0] 0 (nu_share num (nu_log num n0) dof)) as (xs & -> & LX & XS).
  - rewrite NP. cbn [Nat.pow]. now rewrite Nat.mul_1_l.
  - rewrite NP. apply IN. now left.
  - intros y Hy. apply IN. now right.
  - cbn in LN, LA. lia.
  - intros j y Ey. apply (SQ (S j) y). exact Ey.
  - cbn [rbind]. eexists. split; [reflexivity|]. split; [cbn in *; lia|]. intros i Hi. destruct (X i Hi) as (c & Vi & Hi' & Ei & Q & XX). rewrite (XX _ (grid_torus 1 1)). change (List.length (sites (grid 1 1))) with 1%nat.
    replace (pow (norm_product (firstn (S i) (n0 :: ns))) 1) with (norm_product (firstn (S i) (n0 :: ns))) by (cbn; ring).
    destruct i as [|j].
    + cbn in Ei. injection Ei as ->. cbn [nth_error firstn Nat.pow]. rewrite NP, Nat.mul_1_l. f_equal. rewrite <- (lo_share _ _ LOG). f_equal.
      assert (EP : partition (grid 1 1) Ha Va (fun _ => entry4 (w_heap wn) c) = partition (grid 1 1) Hi' Vi (fun _ => entry4 (w_heap wn) c)).
      { pose proof (square_trace _ _ _ _ Q0) as t1. rewrite (square_trace _ _ _ _ Q) in t1. now injection t1. }
      rewrite EP in *. symmetry. apply (lo_mul _ _ LOG); auto. apply IN. now left.
    + cbn [nth_error] in Ei |- *. rewrite (XS j _ Vi Hi' Ei Q). reflexivity.
Qed.

(** ** In the words of the specification *)
Theorem initH_spec (w w' : world) x chiH chiV dof V H T g : newHotrg num (Some x) chiH chiV w = (w', Ok g) -> given (w_heap w) x dof V H T ->
  exists n c, hstate w' g V H /\ o_chiH g = chiH /\ o_chiV g = (match chiV with Some c => c | None => chiH end) /\ o_dof g = dof /\
    o_norms g = [n] /\ o_errors g = [] /\ o_archive g = [(c, dof)] /\ o_choices g = [] /\ o_projs g = [] /\
    normalized num (w_heap w') (o_a g) n /\ archived (w_heap w') (o_a g) c V H /\ preserved (w_heap w) (w_heap w') /\
    forall u l d r, (u < V)%nat -> (l < H)%nat -> (d < V)%nat -> (r < H)%nat -> entry4 (w_heap w') (o_a g) u l d r = nu_div num (T u l d r) n.
Proof.
  intros R GV. destruct (initH_ok _ _ _ _ _ _ _ _ _ _ R GV) as (n & c & ST & C1 & C2 & DF & E1 & E2 & E3 & E4 & E5 & NZ & AR & G & EV). exists n, c. repeat (split; [assumption|]). split; [now apply grown_preserved|exact EV].
Qed.
Theorem initH_none (w : world) chiH chiV : newHotrg num None chiH chiV w = (w, Err AssertionError).
Proof. reflexivity. Qed.
Theorem iterateH_spec (w w' : world) (g g' : hotrg) V H : iterateH symdiff fuel num eig g w = (w', Ok g') -> hstate w g V H -> eigh_ok eig (w_heap w) g V H ->
  exists d n c P, let k := proj_dim eig (w_heap w) g V H d in let cc := (cut d V H * cut d V H)%nat in let m := env_of (w_heap w) g V H d in let T := turn d (entry4 (w_heap w) (o_a g)) in
    In d dirs /\ hstate w' g' (newV d V k) (newH d H k) /\ o_chiH g' = o_chiH g /\ o_chiV g' = o_chiV g /\ o_dof g' = (2 * o_dof g)%nat /\
    o_norms g' = o_norms g ++ [n] /\ o_errors g' = o_errors g ++ [err_of eig num (w_heap w) g V H d] /\ o_archive g' = o_archive g ++ [(c, (2 * o_dof g)%nat)] /\ o_choices g' = o_choices g ++ [d] /\
    o_projs g' = o_projs g ++ [P] /\ wfa P /\ ashape P = [cc; k] /\ (forall i o, (i < cc)%nat -> (o < k)%nat -> aget P [i; o] = proj eig m cc i o) /\
    normalized num (w_heap w') (o_a g') n /\ archived (w_heap w') (o_a g') c (newV d V k) (newH d H k) /\ preserved (w_heap w) (w_heap w') /\
    forall u l dd r, (u < newV d V k)%nat -> (l < newH d H k)%nat -> (dd < newV d V k)%nat -> (r < newH d H k)%nat ->
      entry4 (w_heap w') (o_a g') u l dd r = nu_div num (unturn d (fused (kept d V H) (cut d V H) T T (proj eig m cc) (proj_conj eig num m cc)) u l dd r) n.
Proof.
  intros R ST EO. destruct (iterateH_ok symdiff Hsd fuel num eig w w' g g' V H R ST EO) as (d & P & a & n & c & Hd & _ & -> & WP & SP & GP & ST' & NZ & AR & G & EV).
  exists d, n, c, P. cbv zeta. cbn [o_a o_dof o_chiH o_chiV o_hi o_vi o_hl o_hr o_vu o_vd o_norms o_errors o_archive o_choices o_projs]. split; [exact Hd|]. split; [exact ST'|]. repeat (split; [reflexivity|]).
  split; [exact WP|]. split; [exact SP|]. split; [exact GP|]. split; [exact NZ|]. split; [exact AR|]. split; [now apply grown_preserved|exact EV].
Qed.
Theorem choiceH (w w' : world) (g g' : hotrg) V H d : iterateH symdiff fuel num eig g w = (w', Ok g') -> hstate w g V H -> eigh_ok eig (w_heap w) g V H -> o_choices g' = o_choices g ++ [d] ->
  order_ok eig -> (forall d', In d' dirs -> ei_neg eig (err_of eig num (w_heap w) g V H d') = false) -> first_best eig (err_of eig num (w_heap w) g V H) d.
Proof.
  intros R ST EO EC OK NN. destruct (iterateH_ok symdiff Hsd fuel num eig w w' g g' V H R ST EO) as (d' & P & a & n & c & Hd & EP & -> & _). cbn [o_choices] in EC. apply app_inv_head in EC. injection EC as ->.
  change (pick eig (err_of eig num (w_heap w) g V H) dirs None) with (pick eig (err_of eig num (w_heap w) g V H) ["d"; "l"; "r"] (Some "u")) in EP.
  destruct (pick_first eig (err_of eig num (w_heap w) g V H) OK ["d"; "l"; "r"] ["u"] "u") as (b & Eb & be & af & E1 & E2 & E3); [exact NN|exists [], []; split; [reflexivity|split; intros ? []]|].
  rewrite EP in Eb. injection Eb as ->. exists be, af. auto.
Qed.
Theorem runH_spec w w0 wn x chiH chiV dof V0 H0 T g0 g ds V H : newHotrg num (Some x) chiH chiV w = (w0, Ok g0) -> given (w_heap w) x dof V0 H0 T ->
  exact_runH eig num symdiff fuel w0 g0 V0 H0 ds wn g V H ->
  hstate wn g V H /\ o_chiH g = chiH /\ o_chiV g = (match chiV with Some c => c | None => chiH end) /\ o_dof g = (2 ^ List.length ds * dof)%nat /\ o_choices g = ds /\ (forall d, In d ds -> In d dirs) /\
  List.length (o_norms g) = S (List.length ds) /\ List.length (o_errors g) = List.length ds /\ List.length (o_archive g) = S (List.length ds) /\ List.length (o_projs g) = List.length ds /\ preserved (w_heap w) (w_heap wn).
Proof.
  intros R0 GV RN. destruct (initH_ok _ _ _ _ _ _ _ _ _ _ R0 GV) as (n0 & c & ST & C1 & C2 & DF & E1 & E2 & E3 & E4 & E5 & _ & _ & G & _).
  destruct (run_stateH _ _ _ _ _ _ _ _ _ RN ST) as (ns & es & ar & ps & ST' & I1 & I2 & I3 & I4 & I5 & L1 & L2 & L3 & L4 & DF' & CH & CV & DS & GR).
  rewrite I1, I2, I3, I4, I5, E1, E2, E3, E4, E5, !app_length. cbn [List.length app]. split; [exact ST'|]. split; [congruence|]. split; [congruence|]. split; [now rewrite DF', DF|]. split; [reflexivity|]. split; [exact DS|]. repeat (split; [lia|]). apply grown_preserved. eapply grown_trans; eauto.
Qed.
(** a torus of 2^col_steps columns and 2^row_steps rows *)
Theorem hotrg_torus w w0 wn x chiH chiV dof V0 H0 T g0 g ds V H v : newHotrg num (Some x) chiH chiV w = (w0, Ok g0) -> given (w_heap w) x dof V0 H0 T ->
  exact_runH eig num symdiff fuel w0 g0 V0 H0 ds wn g V H -> (forall x, In x (o_norms g) -> invertible num x) -> tensorTrace (w_heap wn) (o_a g) = Ok v ->
  partition (grid (2 ^ col_steps ds) (2 ^ row_steps ds)) H0 V0 (fun _ => T) = norm_product (o_norms g) * v.
Proof.
  intros R0 GV RN IN EV. destruct (hotrg_value _ _ _ _ _ _ _ _ _ _ _ _ _ _ _ (grid 1 1) R0 GV RN IN (grid_torus 1 1)) as (_ & X).
  destruct (runH_spec _ _ _ _ _ _ _ _ _ _ _ _ _ _ _ R0 GV RN) as ([_ Q] & _). unfold tensorTrace in EV. rewrite (square_trace _ _ _ _ Q) in EV. injection EV as <-.
  rewrite partition_fine in X. rewrite X. f_equal. change (List.length (sites (grid 1 1))) with 1%nat. cbn. ring.
Qed.
(** ** Impurities *)
Theorem impurityH_spec (w w' : world) (g : hotrg) V H t1 t2 idx d P k a : impurityIterate symdiff fuel num g [t1; t2] idx w = (w', Ok a) -> nets_ready w g ->
  nth_error (o_choices g) idx = Some d -> nth_error (o_projs g) idx = Some P -> wfa P -> ashape P = [(cut d V H * cut d V H)%nat; k] -> square (w_heap w) t1 V H -> square (w_heap w) t2 V H ->
  In d dirs /\ square (w_heap w') a (newV d V k) (newH d H k) /\ nets_ready w' g /\ preserved (w_heap w) (w_heap w') /\
  forall u l dd r, (u < newV d V k)%nat -> (l < newH d H k)%nat -> (dd < newV d V k)%nat -> (r < newH d H k)%nat ->
    entry4 (w_heap w') a u l dd r = unturn d (fused (kept d V H) (cut d V H) (turn d (entry4 (w_heap w) t1)) (turn d (entry4 (w_heap w) t2)) (fun i o => aget P [i; o]) (fun i o => nu_conj num (aget P [i; o]))) u l dd r.
Proof.
  intros R NR E1 E2 WP SP Q1 Q2. unfold impurityIterate in R. rewrite E1, E2 in R. destruct (directed_ok symdiff Hsd fuel num _ _ _ _ _ _ _ V H _ _ R NR Q1 Q2 WP SP) as (Hd & QA & NR2 & G2 & _ & EV).
  split; [exact Hd|]. split; [exact QA|]. split; [exact NR2|]. split; [now apply grown_preserved|exact EV].
Qed.
Theorem impurityH_error (w : world) (g : hotrg) ts idx : List.length ts <> 2%nat \/ (List.length (o_choices g) <= idx)%nat -> impurityIterate symdiff fuel num g ts idx w = (w, Err AssertionError).
Proof.
  intros E. unfold impurityIterate. destruct ts as [|t1 [|t2 [|t3 ts]]]; auto. destruct E as [E|E]; [now cbn in E|]. apply nth_error_None in E. now rewrite E.
Qed.
Theorem directedH_error (w : world) (g : hotrg) d P t1 t2 : ~ In d dirs -> directedIterate symdiff fuel num g d P t1 t2 w = (w, Err AssertionError) /\ directedIterateTrial symdiff fuel num eig g d w = (w, Err AssertionError).
Proof. intros N. unfold directedIterate, directedIterateTrial, wbind at 1, wliftR at 1, assertInSet. apply inb_false_iff in N. unfold dirs in N. rewrite N. split; [reflexivity|]. unfold wbind at 1, wliftR at 1. reflexivity. Qed.
End Run.
