(** Proofs about many steps on the triangular pattern. *)
From Coq Require Import List Arith Bool String Lia Permutation.
From Verif Require Import Base Sums NdModel NdProofs HeapModel FuncsModel TensorModel TensorSpec ContractModel SvdModel SvdSpec SearchSpec FtnModel NamedSpec NetsSpec NetsModel NamedMatProofs TorusProofs
  TrgModel TrgSpec TrgProofs TriTrgModel TriTrgSpec TriPairProofs TriStepProofs TriTraceProofs TriLatSpec TriLatProofs TriRunSpec.
Import ListNotations.
Local Open Scope nat_scope.

Section Rn.
Context {A B : Type} {HA : SR A}.
Add Ring Aringr : (@SR_theory A HA).
Notation heap := (heap A).
Notation world := (world A).
Notation tri := (tri A).
Local Open Scope sr_scope.
Variable num : numerics A B.
Variable symdiff : list nat -> list nat -> list nat.
Hypothesis Hsd : symdiff_ok symdiff.
Variable fuel : nat.
Notation run := (tri_run num symdiff fuel).

Lemma run_det ok w0 g0 D0 n w g D w' g' D' : run ok w0 g0 D0 n w g D -> run ok w0 g0 D0 n w' g' D' -> w = w' /\ g = g' /\ D = D'.
Proof.
  intros R. revert w' g' D'. induction R as [|n w g D w1 g1 R IH E O]; intros w' g' D' R'; inversion R'; subst; auto.
  match goal with H : run _ _ _ _ n _ _ _ |- _ => destruct (IH _ _ _ H) as (<- & <- & <-) end. match goal with H : iterateTri _ _ _ _ _ = (w', _) |- _ => rewrite E in H; injection H as <- <- end. auto.
Qed.
Lemma run_prefix ok w0 g0 D0 n w g D : run ok w0 g0 D0 n w g D -> forall i, (i <= n)%nat -> exists wi gi Di, run ok w0 g0 D0 i wi gi Di.
Proof.
  intros R. induction R as [|n w g D w1 g1 R IH E O]; intros i Hi.
  - assert (i = 0%nat) as -> by lia. do 3 eexists. constructor.
  - destruct (Nat.eq_dec i (S n)) as [->|]; [do 3 eexists; econstructor; eauto|apply IH; lia].
Qed.

Definition kept_copies (w : world) (g : tri) (i : nat) (wi : world) (gi : tri) (Di : nat) : Prop :=
  exists ca cb, nth_error (p_aArchive g) i = Some (ca, 3 ^ i)%nat /\ nth_error (p_bArchive g) i = Some (cb, 3 ^ i)%nat /\
    triangle (w_heap w) ca Di /\ triangle (w_heap w) cb Di /\
    (forall x y z, entry3 (w_heap w) ca x y z = entry3 (w_heap wi) (p_a gi) x y z) /\ (forall x y z, entry3 (w_heap w) cb x y z = entry3 (w_heap wi) (p_b gi) x y z) /\
    (apart (w_heap w) ca (p_a g) /\ apart (w_heap w) ca (p_b g)) /\ (apart (w_heap w) cb (p_a g) /\ apart (w_heap w) cb (p_b g)).
Record inv (ok : arr A -> nat -> nat -> Prop) (w0 : world) (g0 : tri) (chi n : nat) (w : world) (g : tri) (D : nat) : Prop := {
  i_state : tri_state w g D; i_chi : p_chi g = chi; i_dof : p_dofA g = (3 ^ n)%nat /\ p_dofB g = (3 ^ n)%nat;
  i_na : List.length (p_aNorms g) = S n; i_nb : List.length (p_bNorms g) = S n; i_ne : List.length (p_errors g) = n; i_aa : List.length (p_aArchive g) = S n; i_ab : List.length (p_bArchive g) = S n;
  i_arch : forall i wi gi Di, (i <= n)%nat -> run ok w0 g0 2 i wi gi Di -> kept_copies w g i wi gi Di /\ p_aNorms gi = firstn (S i) (p_aNorms g) /\ p_bNorms gi = firstn (S i) (p_bNorms g) }.

Lemma firstn_more {X} (l l' : list X) i : (i <= List.length l)%nat -> firstn i (l ++ l') = firstn i l.
Proof. intros H. rewrite firstn_app. replace (i - List.length l)%nat with 0%nat by lia. cbn [firstn]. apply app_nil_r. Qed.

Lemma run_inv (ok : arr A -> nat -> nat -> Prop) w w0 alpha chi g0 n wn g D : (forall m n chi, ok m n chi -> svd_shape (nu_lib num) m n n) ->
  newTri num alpha chi w = (w0, Ok g0) -> run ok w0 g0 2 n wn g D -> inv ok w0 g0 chi n wn g D.
Proof.
  intros OK R0 R. induction R as [|n w1 g D w2 g2 R IH E O].
  - destruct (newTri_ok num w w0 alpha chi g0 R0) as (a & b & na & nb & ca & cb & Eg & ST & _ & _ & CA & CB & _). pose proof CA as (ca1 & ca2 & ca3 & ca4). pose proof CB as (cb1 & cb2 & cb3 & cb4).
    constructor; [exact ST|rewrite Eg; reflexivity|rewrite Eg; split; reflexivity|rewrite Eg; reflexivity|rewrite Eg; reflexivity|rewrite Eg; reflexivity|rewrite Eg; reflexivity|rewrite Eg; reflexivity|]. intros i wi gi Di Hi Ri. assert (i = 0%nat) as -> by lia. inversion Ri; subst wi gi Di. split; [|rewrite Eg; split; reflexivity].
    exists ca, cb. split; [rewrite Eg; reflexivity|]. split; [rewrite Eg; reflexivity|]. split; [exact ca1|]. split; [exact cb1|]. assert (p_a g0 = a /\ p_b g0 = b) as (Ea & Eb) by (rewrite Eg; auto).
    split; [intros; rewrite ca4, Ea; auto|]. split; [intros; rewrite cb4, Eb; auto|]. auto.
  - destruct IH as [ST EC (DA & DB) LNA LNB LNE LAA LAB AR]. pose proof E as E0. apply (iterateTri_ok num symdiff Hsd fuel) with (D := D) in E; auto; [|now apply OK in O].
    destruct E as (a & b & f & na & nb & ca & cb & Eg & ST' & _ & _ & CA & CB & KP & _). pose proof CA as (ca1 & ca2 & ca3 & ca4). pose proof CB as (cb1 & cb2 & cb3 & cb4).
    assert (EA : p_a g2 = a /\ p_b g2 = b) by (rewrite Eg; auto). destruct EA as (Ea & Eb).
    constructor.
    + exact ST'.
    + rewrite Eg. exact EC.
    + rewrite Eg. cbn [p_dofA p_dofB]. rewrite DA. cbn [Nat.pow]. lia.
    + rewrite Eg. cbn [p_aNorms]. rewrite app_length, LNA. cbn. lia.
    + rewrite Eg. cbn [p_bNorms]. rewrite app_length, LNB. cbn. lia.
    + rewrite Eg. cbn [p_errors]. rewrite app_length, LNE. cbn. lia.
    + rewrite Eg. cbn [p_aArchive]. rewrite app_length, LAA. cbn. lia.
    + rewrite Eg. cbn [p_bArchive]. rewrite app_length, LAB. cbn. lia.
    + intros i wi gi Di Hi Ri. destruct (Nat.eq_dec i (S n)) as [->|Ni].
      * assert (R2 : run ok w0 g0 2 (S n) w2 g2 (Nat.min (p_chi g) (D * D))) by (econstructor; eauto). destruct (run_det _ _ _ _ _ _ _ _ _ _ _ R2 Ri) as (<- & <- & <-). split.
        -- exists ca, cb. split; [rewrite Eg; cbn [p_aArchive]; rewrite nth_error_app2, LAA, Nat.sub_diag by lia; cbn [nth_error]; now rewrite DA|].
           split; [rewrite Eg; cbn [p_bArchive]; rewrite nth_error_app2, LAB, Nat.sub_diag by lia; cbn [nth_error]; now rewrite DA|].
           split; [exact ca1|]. split; [exact cb1|]. split; [intros; rewrite ca4, Ea; auto|]. split; [intros; rewrite cb4, Eb; auto|]. auto.
        -- rewrite !firstn_all2; auto; rewrite Eg; cbn [p_aNorms p_bNorms]; rewrite app_length; cbn [List.length]; lia.
      * destruct (AR i wi gi Di ltac:(lia) Ri) as ((xa & xb & N1 & N2 & T1 & T2 & V1 & V2 & (P1 & P2) & (P3 & P4)) & F1 & F2). split.
        -- destruct (KP xa _ T1 P1 P2) as (T1' & V1' & P1' & P2'). destruct (KP xb _ T2 P3 P4) as (T2' & V2' & P3' & P4').
           exists xa, xb. split; [rewrite Eg; cbn [p_aArchive]; rewrite nth_error_app1 by lia; exact N1|]. split; [rewrite Eg; cbn [p_bArchive]; rewrite nth_error_app1 by lia; exact N2|].
           split; [exact T1'|]. split; [exact T2'|]. split; [intros; unfold entry3 in *; now rewrite V1', V1|]. split; [intros; unfold entry3 in *; now rewrite V2', V2|]. auto.
        -- rewrite Eg. cbn [p_aNorms p_bNorms]. rewrite !firstn_more by lia. auto.
Qed.

Theorem tri_archive (ok : arr A -> nat -> nat -> Prop) w w0 alpha chi g0 n wn g D : (forall m n chi, ok m n chi -> svd_shape (nu_lib num) m n n) ->
  newTri num alpha chi w = (w0, Ok g0) -> run ok w0 g0 2 n wn g D ->
  tri_state wn g D /\ p_chi g = chi /\ p_dofA g = (3 ^ n)%nat /\ p_dofB g = (3 ^ n)%nat /\ List.length (p_aNorms g) = S n /\ List.length (p_bNorms g) = S n /\ List.length (p_errors g) = n /\
  List.length (p_aArchive g) = S n /\ List.length (p_bArchive g) = S n /\
  forall i wi gi Di, (i <= n)%nat -> run ok w0 g0 2 i wi gi Di -> holds wn g i wi gi Di /\ p_aNorms gi = firstn (S i) (p_aNorms g) /\ p_bNorms gi = firstn (S i) (p_bNorms g).
Proof.
  intros OK R0 R. destruct (run_inv ok _ _ _ _ _ _ _ _ _ OK R0 R) as [ST EC (DA & DB) LNA LNB LNE LAA LAB AR]. repeat (split; [assumption|]).
  intros i wi gi Di Hi Ri. destruct (AR i wi gi Di Hi Ri) as ((ca & cb & N1 & N2 & T1 & T2 & V1 & V2 & _) & F). split; [|exact F]. exists ca, cb. auto 10.
Qed.

(** ** The value of the lattice *)
Lemma trefine_comm n L : trefined n (trefine L) = trefine (trefined n L).
Proof. induction n; cbn; congruence. Qed.
Lemma pair_halves (a b : nat -> nat -> nat -> A) D chi : (forall x, nu_conj num x = x) -> faithful num (pair_mat D a b) (D * D) chi ->
  forall p q r s, (p < D)%nat -> (q < D)%nat -> (r < D)%nat -> (s < D)%nat ->
  sumN D (fun z => a z p r * b z q s) = sumN (Nat.min chi (D * D)) (fun o => half_u num (pair_mat D a b) (p * D + q)%nat o * half_v num (pair_mat D a b) (r * D + s)%nat o).
Proof.
  intros CJ (EX & LL) p q r s Hp Hq Hr Hs. rewrite <- (mat4_get D D (fun x y z w => sumN D (fun k => a k x z * b k y w)) p q r s) by auto. change (mat4 D D (fun x y z w => sumN D (fun k => a k x z * b k y w))) with (pair_mat D a b).
  rewrite (halves_product num _ _ _ chi _ _ EX LL) by (apply pair_ravel; auto). rewrite Nat.min_id. apply sumN_ext. intros o _. unfold half_v. now rewrite CJ.
Qed.
Lemma combine_snoc {X Y} (l1 : list X) (l2 : list Y) r1 r2 : List.length l1 = List.length l2 -> combine (l1 ++ r1) (l2 ++ r2) = combine l1 l2 ++ combine r1 r2.
Proof. revert l2. induction l1 as [|x l1 IH]; intros [|y l2] E; try discriminate; cbn [app combine]; [reflexivity|]. f_equal. apply IH. now injection E. Qed.
Lemma norm3_snoc (ns : list A) m : norm_product3 (ns ++ [m]) = norm_product3 ns * (norm_product3 ns * norm_product3 ns) * m.
Proof.
  induction ns as [|x ns IH]; [cbn; ring|]. cbn [norm_product3 app]. rewrite IH, app_length. cbn [List.length]. replace (3 ^ (List.length ns + 1))%nat with (3 ^ List.length ns + (3 ^ List.length ns + 3 ^ List.length ns))%nat by (rewrite Nat.add_1_r; cbn [Nat.pow]; lia). rewrite !pow_add. ring.
Qed.

Theorem tri_value w w0 alpha chi g0 n wn g D L : (forall x, nu_conj num x = x) -> newTri num alpha chi w = (w0, Ok g0) -> run (faithful num) w0 g0 2 n wn g D ->
  (forall x, In x (p_aNorms g ++ p_bNorms g) -> invertible num x) -> trilat_ok L ->
  lattice_value (trefined n L) 2 (hard alpha) (hard alpha) = pow (norm_product3 (pair_norms g)) (List.length (cellsA L)) * lattice_value L D (entry3 (w_heap wn) (p_a g)) (entry3 (w_heap wn) (p_b g)).
Proof.
  intros CJ R0 R. assert (OK : forall m n chi, faithful num m n chi -> svd_shape (nu_lib num) m n n) by (intros m n' c (EX & _); apply EX).
  revert L. induction R as [|n w1 g D w2 g2 R IH E O]; intros L IN OL.
  - destruct (newTri_ok num w w0 alpha chi g0 R0) as (a & b & na & nb & ca & cb & Eg & _ & _ & _ & _ & _ & _ & V). rewrite Eg in IN |- *. unfold pair_norms. cbn [p_a p_b p_aNorms p_bNorms app combine map fst snd norm_product3 List.length Nat.pow pow] in *.
    destruct (cells_count L OL) as (C1 & C2). assert (EL : List.length (cellsB L) = List.length (cellsA L)) by lia.
    transitivity (lattice_value L 2 (fun i j k => na * entry3 (w_heap w0) a i j k) (fun i j k => nb * entry3 (w_heap w0) b i j k)).
    + apply lattice_range; auto. intros i j k Hi Hj Hk. destruct (V i j k Hi Hj Hk) as (-> & ->). assert (I1 : invertible num na) by (apply IN; simpl; auto). assert (I2 : invertible num nb) by (apply IN; simpl; auto).
      split; [rewrite <- (I1 (hard alpha i j k)) at 1|rewrite <- (I2 (hard alpha i j k)) at 1]; ring.
    + rewrite lattice_scale, EL. replace (na * nb * 1 * 1) with (na * nb) by ring. rewrite pow_mul. reflexivity.
  - destruct (run_inv (faithful num) _ _ _ _ _ _ _ _ _ OK R0 R) as [ST _ _ LNA LNB _ _ _ _]. pose proof O as O'. apply OK in O'.
    apply (iterateTri_ok num symdiff Hsd fuel) with (D := D) in E; auto. destruct E as (a & b & f & na & nb & ca & cb & Eg & _ & _ & _ & _ & _ & _ & V). rewrite Eg in IN |- *. unfold pair_norms. cbn [p_a p_b p_aNorms p_bNorms] in *.
    assert (I1 : invertible num na) by (apply IN; rewrite !in_app_iff; simpl; auto). assert (I2 : invertible num nb) by (apply IN; rewrite !in_app_iff; simpl; auto).
    cbn [trefined]. rewrite <- trefine_comm. rewrite (IH (trefine L)); [|intros x Hx; apply IN; rewrite !in_app_iff in *; tauto|now apply trefine_ok].
    destruct (cells_count L OL) as (C1 & C2). assert (EL : List.length (cellsB L) = List.length (cellsA L)) by lia. set (N := List.length (cellsA L)) in *.
    assert (EN : List.length (cellsA (trefine L)) = (3 * N)%nat) by (cbn [trefine cellsA]; rewrite map_length; lia). rewrite EN. set (K := Nat.min (p_chi g) (D * D)) in *.
    rewrite (trilat_step L D K _ _ (half_u num (tri_mat (w_heap w1) g D)) (half_v num (tri_mat (w_heap w1) g D)) OL (pair_halves _ _ D (p_chi g) CJ O)).
    transitivity (pow (norm_product3 (pair_norms g)) (3 * N) * lattice_value L K (fun i j k => na * entry3 (w_heap w2) a i j k) (fun i j k => nb * entry3 (w_heap w2) b i j k)).
    + f_equal. apply lattice_range; auto. intros i j k Hi Hj Hk. destruct (V i j k Hi Hj Hk) as (-> & ->).
      split; [rewrite <- (I1 (around D _ i j k)) at 1|rewrite <- (I2 (around D _ i j k)) at 1]; ring.
    + rewrite lattice_scale, EL. fold N. rewrite combine_snoc by lia. rewrite map_app. cbn [combine map fst snd]. fold (pair_norms g). rewrite norm3_snoc. rewrite !pow_mul. replace (3 * N)%nat with (N + (N + N))%nat by lia. rewrite !pow_add. ring.
Qed.

(** ** logZDensity *)
Inductive arch (h : heap) : list A -> list A -> list (tid * nat) -> list (tid * nat) -> list (A * A * nat) -> Prop :=
| ar_nil nas nbs br : arch h nas nbs [] br []
| ar_cons na nas nb nbs ta da ar tb db br l D : triangle h ta D -> triangle h tb D -> arch h nas nbs ar br l ->
    arch h (na :: nas) (nb :: nbs) ((ta, da) :: ar) ((tb, db) :: br) ((na * nb, theta D (entry3 h ta) (entry3 h tb), (da * db)%nat) :: l).
Lemma arch_grown (h h' : heap) nas nbs ar br l : grown h h' -> arch h nas nbs ar br l -> arch h' nas nbs ar br l.
Proof.
  intros G. induction 1 as [|na nas nb nbs ta da ar tb db br l D Ta Tb AR IH]; [constructor|]. destruct (grown_dense _ _ _ _ G Ta) as (Ta' & Ea & _). destruct (grown_dense _ _ _ _ G Tb) as (Tb' & Eb & _).
  replace (theta D (entry3 h ta) (entry3 h tb)) with (theta D (entry3 h' ta) (entry3 h' tb)); [constructor; auto|].
  unfold theta. apply sumN_ext. intros i _. apply sumN_ext. intros j _. apply sumN_ext. intros k _. unfold entry3. now rewrite Ea, Eb.
Qed.
Fixpoint tri_logs (acc : B) (l : list (A * A * nat)) : list B :=
  match l with
  | [] => []
  | (n, z, d) :: l' => let acc := nu_plus num acc (nu_share num (nu_log num n) d) in nu_plus num acc (nu_share num (nu_log num z) d) :: tri_logs acc l'
  end.
Lemma logz_tri l : forall (h : heap) nas nbs ar br acc, arch h nas nbs ar br l -> exists h', logZTriAux num acc nas nbs ar br h = (h', Ok (tri_logs acc l)) /\ grown h h'.
Proof.
  induction l as [|x l IH]; intros h nas nbs ar br acc H; inversion H as [|na nas' nb nbs' ta da ar' tb db br' l' D Ta Tb AR]; subst.
  - exists h. split; [destruct nas; reflexivity|apply grown_refl].
  - cbn [logZTriAux tri_logs]. destruct (trace_ok h ta tb D Ta Tb) as (h1 & t & E1 & G1 & S1). unfold bind at 1. rewrite E1. unfold bind at 1, readsR at 1. rewrite S1.
    destruct (IH h1 nas' nbs' ar' br' (nu_plus num acc (nu_share num (nu_log num (na * nb)) (da * db))) (arch_grown _ _ _ _ _ _ _ G1 AR)) as (h2 & E2 & G2).
    exists h2. unfold bind at 1. rewrite E2. split; [reflexivity|eapply grown_trans; eauto].
Qed.
Lemma tri_logs_nth l : forall acc i x, nth_error l i = Some x -> nth_error (tri_logs acc l) i =
  Some (nu_plus num (fold_left (fun acc p => nu_plus num acc (nu_share num (nu_log num (fst (fst p))) (snd p))) (firstn (S i) l) acc) (nu_share num (nu_log num (snd (fst x))) (snd x))).
Proof.
  induction l as [|((n, z), d) l IH]; intros acc i x E; [destruct i; discriminate|]. destruct i as [|i].
  - injection E as <-. reflexivity.
  - cbn [tri_logs nth_error]. cbn [nth_error] in E. rewrite (IH _ _ _ E). reflexivity.
Qed.
Lemma tri_logs_len l : forall acc, List.length (tri_logs acc l) = List.length l.
Proof. induction l as [|((n, z), d) l IH]; intros acc; cbn; auto. Qed.
Lemma fold_snoc (l : list (A * A * nat)) acc i x : nth_error l i = Some x -> fold_left (fun acc p => nu_plus num acc (nu_share num (nu_log num (fst (fst p))) (snd p))) (firstn (S i) l) acc =
  nu_plus num (fold_left (fun acc p => nu_plus num acc (nu_share num (nu_log num (fst (fst p))) (snd p))) (firstn i l) acc) (nu_share num (nu_log num (fst (fst x))) (snd x)).
Proof.
  intros E. assert (F : firstn (S i) l = firstn i l ++ [x]).
  { revert i E. induction l as [|y l IH]; intros [|i] E; try discriminate; [now injection E as ->|]. cbn [firstn app]. f_equal. now apply IH. }
  now rewrite F, fold_left_app.
Qed.
(** reading the lists position by position *)
Lemma arch_of (h : heap) : forall nas nbs ar br m (z : nat -> A) (d : nat -> nat), List.length nas = m -> List.length nbs = m -> List.length ar = m -> List.length br = m ->
  (forall i, (i < m)%nat -> exists ta tb D, nth_error ar i = Some (ta, d i) /\ nth_error br i = Some (tb, d i) /\ triangle h ta D /\ triangle h tb D /\ theta D (entry3 h ta) (entry3 h tb) = z i) ->
  exists l, arch h nas nbs ar br l /\ List.length l = m /\ forall i, (i < m)%nat -> nth_error l i = Some (nth i (map (fun p => fst p * snd p) (combine nas nbs)) 0, z i, (d i * d i)%nat).
Proof.
  induction nas as [|na nas IH]; intros [|nb nbs] [|(ta, da) ar] [|(tb, db) br] m z d L1 L2 L3 L4 H; cbn in *; try lia.
  - exists []. split; [constructor|]. split; [auto|]. intros; lia.
  - destruct m as [|m]; [lia|]. destruct (IH nbs ar br m (fun i => z (S i)) (fun i => d (S i))) as (l & AR & Ll & Nl); try lia.
    + intros i Hi. destruct (H (S i)) as (xa & xb & D & X); [lia|]. exists xa, xb, D. exact X.
    + destruct (H 0%nat) as (xa & xb & D & E1 & E2 & Ta & Tb & Ez); [lia|]. cbn in E1, E2. injection E1 as -> Ed. injection E2 as -> Ed'.
      eexists. split; [econstructor; eauto|]. split; [cbn; lia|]. intros [|i] Hi; cbn [nth_error map combine nth fst snd].
      * rewrite Ez, Ed, Ed'. reflexivity.
      * apply Nl. lia.
Qed.

Theorem tri_density w w0 alpha chi g0 n wn g D : newTri num alpha chi w = (w0, Ok g0) -> run (shaped num) w0 g0 2 n wn g D ->
  exists h' zs, logZDensityTri num g (w_heap wn) = (h', Ok zs) /\ preserved (w_heap wn) h' /\ List.length zs = S n /\
    forall i wi gi Di, (i <= n)%nat -> run (shaped num) w0 g0 2 i wi gi Di -> nth_error zs i = Some (log_density num 9 (pair_norms g) i (theta Di (entry3 (w_heap wi) (p_a gi)) (entry3 (w_heap wi) (p_b gi)))).
Proof.
  intros R0 R. destruct (run_inv (shaped num) _ _ _ _ _ _ _ _ _ ltac:(auto) R0 R) as [ST EC _ LNA LNB _ LAA LAB AR].
  assert (CH : exists z, forall i wi gi Di, (i <= n)%nat -> run (shaped num) w0 g0 2 i wi gi Di -> z i = theta Di (entry3 (w_heap wi) (p_a gi)) (entry3 (w_heap wi) (p_b gi))).
  { clear -R. induction n as [|n IH] in wn, g, D, R |- *.
    - exists (fun _ => theta D (entry3 (w_heap wn) (p_a g)) (entry3 (w_heap wn) (p_b g))). intros i wi gi Di Hi Ri. assert (i = 0%nat) as -> by lia. destruct (run_det _ _ _ _ _ _ _ _ _ _ _ R Ri) as (<- & <- & <-). reflexivity.
    - destruct (run_prefix _ _ _ _ _ _ _ _ R n ltac:(lia)) as (w1 & g1 & D1 & R1). destruct (IH _ _ _ R1) as (z & Hz).
      exists (fun i => if Nat.eqb i (S n) then theta D (entry3 (w_heap wn) (p_a g)) (entry3 (w_heap wn) (p_b g)) else z i). intros i wi gi Di Hi Ri. destruct (Nat.eqb_spec i (S n)) as [->|Ni].
      + destruct (run_det _ _ _ _ _ _ _ _ _ _ _ R Ri) as (<- & <- & <-). reflexivity.
      + apply Hz; auto. lia. }
  destruct CH as (z & Hz).
  destruct (arch_of (w_heap wn) (p_aNorms g) (p_bNorms g) (p_aArchive g) (p_bArchive g) (S n) z (fun i => 3 ^ i)%nat LNA LNB LAA LAB) as (l & AL & LL & NL).
  { intros i Hi. destruct (run_prefix _ _ _ _ _ _ _ _ R i ltac:(lia)) as (wi & gi & Di & Ri). destruct (AR i wi gi Di ltac:(lia) Ri) as ((ca & cb & N1 & N2 & T1 & T2 & V1 & V2 & _) & _).
    exists ca, cb, Di. repeat (split; [assumption|]). rewrite (Hz i wi gi Di) by (auto; lia). unfold theta. apply sumN_ext. intros x _. apply sumN_ext. intros y _. apply sumN_ext. intros u _. now rewrite V1, V2. }
  destruct (logz_tri l (w_heap wn) _ _ _ _ (nu_zero num) AL) as (h' & E & G). exists h', (tri_logs (nu_zero num) l). split; [exact E|]. split; [now apply grown_preserved|]. split; [now rewrite tri_logs_len|].
  intros i wi gi Di Hi Ri. rewrite (tri_logs_nth l _ i _ (NL i ltac:(lia))). cbn [fst snd]. rewrite <- (Hz i wi gi Di Hi Ri). f_equal. unfold log_density.
  assert (P9 : forall j, (9 ^ j = 3 ^ j * 3 ^ j)%nat) by (intros j; rewrite <- Nat.pow_mul_l; reflexivity). f_equal; [|now rewrite P9].
  clear -NL Hi P9. induction i as [|i IH].
  - rewrite (fold_snoc l _ 0 _ (NL 0%nat ltac:(lia))). reflexivity.
  - rewrite (fold_snoc l _ (S i) _ (NL (S i) ltac:(lia))). cbn [fst snd]. rewrite IH by lia. cbn [log_sum]. rewrite !P9. reflexivity.
Qed.

Lemma log_sum_ext base (ns ns' : list A) k : (forall j, (j < k)%nat -> nth j ns 0 = nth j ns' 0) -> log_sum num base ns k = log_sum num base ns' k.
Proof. induction k as [|k IH]; intros E; cbn [log_sum]; [reflexivity|]. rewrite IH by (intros; apply E; lia). now rewrite E by lia. Qed.
Lemma norms_log pos : log3_ok num pos -> forall n ns, List.length ns = S n -> (forall x, In x ns -> pos x) ->
  pos (norm_product3 ns) /\ nu_share num (nu_log num (norm_product3 ns)) (3 ^ n) = log_sum num 3 ns (S n).
Proof.
  intros [LM LO LS LT]. induction n as [|n IH]; intros ns EL PS.
  - destruct ns as [|x [|]]; try discriminate. cbn [norm_product3 List.length Nat.pow pow log_sum nth]. replace (x * 1 * 1) with x by ring. split; [apply PS; now left|]. now rewrite LO.
  - destruct (@exists_last A ns) as (ns' & m & ->); [intros ->; discriminate|]. rewrite app_length in EL. cbn [List.length] in EL. destruct (IH ns') as (P1 & E1); [lia|intros x Hx; apply PS; apply in_app_iff; auto|].
    assert (Pm : pos m) by (apply PS; apply in_app_iff; simpl; auto). rewrite norm3_snoc. set (q := norm_product3 ns') in *.
    destruct (LM q q P1 P1) as (P2 & E2). destruct (LM q (q * q) P1 P2) as (P3 & E3). destruct (LM _ m P3 Pm) as (P4 & E4). split; [exact P4|].
    rewrite E4, E3, E2, LS. change (3 ^ S n)%nat with (3 * 3 ^ n)%nat. rewrite LT, E1. cbn [log_sum nu_plus]. 
    assert (LN : List.length ns' = S n) by lia.
    assert (EX : log_sum num 3 ns' (S n) = log_sum num 3 (ns' ++ [m]) (S n)) by (apply log_sum_ext; intros j Hj; now rewrite app_nth1 by lia). cbn [log_sum] in EX. rewrite EX. f_equal. rewrite app_nth2, LN, Nat.sub_diag by lia. reflexivity.
Qed.
(** the logarithm of the value per pair of cells, without loss *)
Theorem tri_true_density pos w w0 alpha chi g0 n wn g D : (forall x, nu_conj num x = x) -> log3_ok num pos -> newTri num alpha chi w = (w0, Ok g0) -> run (faithful num) w0 g0 2 n wn g D ->
  (forall x, In x (p_aNorms g ++ p_bNorms g) -> invertible num x /\ pos x) -> let z := theta D (entry3 (w_heap wn) (p_a g)) (entry3 (w_heap wn) (p_b g)) in pos z ->
  List.length (cellsA (trefined n theta_lattice)) = (3 ^ n)%nat /\ 
  nu_share num (nu_log num (lattice_value (trefined n theta_lattice) 2 (hard alpha) (hard alpha))) (3 ^ n) = log_density num 3 (pair_norms g) n z.
Proof.
  intros CJ LG R0 R IN z Pz. assert (OK : forall m n chi, faithful num m n chi -> svd_shape (nu_lib num) m n n) by (intros m n' c (EX & _); apply EX).
  destruct (run_inv (faithful num) _ _ _ _ _ _ _ _ _ OK R0 R) as [ST _ _ LNA LNB _ _ _ _].
  split; [rewrite (proj1 (trefined_count n _ theta_ok)); cbn; lia|].
  rewrite (tri_value w w0 alpha chi g0 n wn g D theta_lattice CJ R0 R); [|intros x Hx; now apply IN|apply theta_ok]. rewrite theta_value. fold z. cbn [theta_lattice cellsA List.length pow].
  replace (norm_product3 (pair_norms g) * 1 * z) with (norm_product3 (pair_norms g) * z) by ring.
  assert (LP : List.length (pair_norms g) = S n) by (unfold pair_norms; rewrite map_length, combine_length; lia).
  destruct (norms_log pos LG n (pair_norms g) LP) as (P1 & E1).
  { intros x Hx. unfold pair_norms in Hx. apply in_map_iff in Hx. destruct Hx as ((x1, x2) & <- & Hx). cbn [fst snd]. apply (l3_mul _ _ LG).
    - apply in_combine_l in Hx. apply IN. apply in_app_iff. auto.
    - apply in_combine_r in Hx. apply IN. apply in_app_iff. auto. }
  destruct (l3_mul _ _ LG _ _ P1 Pz) as (_ & E2). rewrite E2, (l3_share _ _ LG), E1. reflexivity.
Qed.
End Rn.
