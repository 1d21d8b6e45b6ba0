(** CTMRG without loss computes the mirrored lattice. *)
From Coq Require Import List Arith Bool Lia Permutation.
From Verif Require Import Base Sums NdModel SvdModel SvdSpec OpenSpec TorusProofs SumAllProofs OpenProofs OpenSplitProofs TrgSpec CtmrgSpec.
Import ListNotations.
Local Open Scope nat_scope.

Section Val.
Context {A : Type} {HA : SR A}.
Add Ring VALring : (@SR_theory A HA).
Variables H V : nat.
Variable T : nat -> nat -> nat -> nat -> A.
Notation quad := (quad H V T).
Notation hcol := (hcol V T).
Notation vrow := (vrow H T).
Notation asg := (nat -> nat).
Local Open Scope sr_scope.
Definition delta (y z : nat) : A := if Nat.eqb y z then 1 else 0.
Definition below (d n : nat) (s : asg) : Prop := forall i, (i < n)%nat -> (s i < d)%nat.
Definition sumS (d n : nat) (f : asg -> A) : A := sum_all (fun _ : nat => d) (seq 0 n) f z0.
Lemma sumH_S n f : sumH H n f = sumS H n f. Proof. reflexivity. Qed.
Lemma sumV_S n f : sumV V n f = sumS V n f. Proof. reflexivity. Qed.
Lemma sumS_ext d n f g : (forall s, below d n s -> f s = g s) -> sumS d n f = sumS d n g.
Proof. intros E. apply sa_range. intros s Hs _. apply E. intros i Hi. apply Hs. apply in_seq. lia. Qed.
Lemma sumS_mul d n k f : sumS d n (fun s => k * f s) = k * sumS d n f. Proof. apply sa_mul_l. Qed.
Lemma sumS_sumN d n m f : sumS d n (fun s => sumN m (fun i => f i s)) = sumN m (fun i => sumS d n (f i)). Proof. apply (sa_sumN (fun _ => d)). Qed.
Lemma sumS_more d n f : sumS d (S n) f = sumS d n (fun s => sumN d (fun y => f (fun i => if dec i n then y else s i))).
Proof. unfold sumS. rewrite seq_S. cbn [plus]. rewrite sa_app. reflexivity. Qed.
Lemma sumN_delta n z (f : nat -> A) : (z < n)%nat -> sumN n (fun y => delta z y * f y) = f z.
Proof.
  intros Hz. rewrite (sumN_single n _ z Hz).
  - unfold delta. rewrite Nat.eqb_refl. ring.
  - intros i _ Hi. unfold delta. destruct (Nat.eqb_spec z i); [congruence|ring].
Qed.
Definition iso (d n k : nat) (P : asg -> nat -> A) : Prop := forall y z, (y < k)%nat -> (z < k)%nat -> sumS d n (fun s => P s y * P s z) = delta y z.
Lemma iso_sum d n k P f g : iso d n k P -> sumS d n (fun s => sumN k (fun z => P s z * f z) * sumN k (fun z => P s z * g z)) = sumN k (fun z => f z * g z).
Proof.
  intros I. transitivity (sumS d n (fun s => sumN k (fun y => sumN k (fun z => (f y * g z) * (P s y * P s z))))).
  - apply sumS_ext. intros s _. rewrite <- sumN_mul_r. apply sumN_ext. intros y _. rewrite <- sumN_mul_l. apply sumN_ext. intros z _. ring.
  - rewrite (sumS_sumN d n k (fun y s => sumN k (fun z => (f y * g z) * (P s y * P s z)))). apply sumN_ext. intros y Hy.
    rewrite (sumS_sumN d n k (fun z s => (f y * g z) * (P s y * P s z))). rewrite (sumN_ext k _ (fun z => delta y z * (f y * g z))).
    + now rewrite (sumN_delta k y (fun z => f y * g z)).
    + intros z Hz. rewrite sumS_mul, (I y z Hy Hz). ring.
Qed.
Lemma iso_sum2 d n k P f g : iso d n k P ->
  sumS d n (fun s => sumS d n (fun t => sumN k (fun y => sumN k (fun z => P s y * P t z * f y z)) * sumN k (fun y => sumN k (fun z => P s y * P t z * g y z)))) =
  sumN k (fun y => sumN k (fun z => f y z * g y z)).
Proof.
  intros I. transitivity (sumS d n (fun s => sumN k (fun z => sumN k (fun y => P s y * f y z) * sumN k (fun y => P s y * g y z)))).
  - apply sumS_ext. intros s _. rewrite <- (iso_sum d n k P _ _ I). apply sumS_ext. intros t _. f_equal; rewrite sumN_swap; apply sumN_ext; intros z _; rewrite <- sumN_mul_l; apply sumN_ext; intros y _; ring.
  - rewrite sumS_sumN. rewrite (sumN_swap k k (fun y z => f y z * g y z)). apply sumN_ext. intros z _. now rewrite (iso_sum d n k P _ _ I).
Qed.

(** the first [n] sites in each direction as seen in an env *)
Record sees (n : nat) (E : env A) (sc sh sv : A) (P Q : asg -> nat -> A) : Prop := {
  sp_ag : forall s s' z, agree n s s' -> P s z = P s' z;
  sq_ag : forall s s' z, agree n s s' -> Q s z = Q s' z;
  sp_iso : iso V n (e_k E) P;
  sq_iso : iso H n (e_k E) Q;
  s_quad : forall hr vu, below H n hr -> below V n vu -> quad n hr vu = sc * sumN (e_k E) (fun z => P vu z * e_c E z * Q hr z);
  s_hcol : forall ls rs u, below H n ls -> below H n rs -> (u < V)%nat -> hcol n ls rs u = sh * sumN (e_k E) (fun y => sumN (e_k E) (fun z => Q ls y * Q rs z * e_h E y z u));
  s_vrow : forall us ds r, below V n us -> below V n ds -> (r < H)%nat -> vrow n us ds r = sv * sumN (e_k E) (fun y => sumN (e_k E) (fun z => P us y * P ds z * e_v E y z r)) }.
Definition represents (n : nat) (E : env A) (sc sh sv : A) : Prop := exists P Q, sees n E sc sh sv P Q.

Lemma no_sites_seen : represents 0 (no_sites (A := A)) 1 1 1.
Proof.
  exists (fun _ _ => 1), (fun _ _ => 1). split; auto.
  - intros y z Hy Hz. cbn in *. unfold sumS, delta. cbn. assert (y = O /\ z = O) as [-> ->] by lia. cbn. ring.
  - intros y z Hy Hz. cbn in *. unfold sumS, delta. cbn. assert (y = O /\ z = O) as [-> ->] by lia. cbn. ring.
  - intros hr vu _ _. cbn. ring.
  - intros ls rs u _ _ _. cbn. ring.
  - intros ls rs u _ _ _. cbn. ring.
Qed.

Lemma lift2 k k' (p q : nat -> A) (u w : nat -> nat -> A) f :
  sumN k (fun a => sumN k (fun b => p a * q b * sumN k' (fun y => sumN k' (fun z => u a y * w b z * f y z)))) =
  sumN k' (fun y => sumN k' (fun z => sumN k (fun a => p a * u a y) * sumN k (fun b => q b * w b z) * f y z)).
Proof.
  transitivity (sumN k (fun a => sumN k (fun b => sumN k' (fun y => sumN k' (fun z => p a * u a y * (q b * w b z) * f y z))))).
  { apply sumN_ext; intros a _; apply sumN_ext; intros b _. rewrite <- sumN_mul_l. apply sumN_ext; intros y _. rewrite <- sumN_mul_l. apply sumN_ext; intros z _. ring. }
  transitivity (sumN k (fun a => sumN k' (fun y => sumN k' (fun z => p a * u a y * sumN k (fun b => q b * w b z) * f y z)))).
  { apply sumN_ext; intros a _. rewrite sumN_swap. apply sumN_ext; intros y _. rewrite sumN_swap. apply sumN_ext; intros z _. rewrite sumN_mul_r. f_equal. now rewrite sumN_mul_l. }
  rewrite sumN_swap. apply sumN_ext; intros y _. rewrite sumN_swap. apply sumN_ext; intros z _. rewrite sumN_mul_r. f_equal. now rewrite sumN_mul_r.
Qed.
Lemma lift1 k k' (p q : nat -> A) (u w : nat -> nat -> A) f :
  sumN k (fun a => sumN k (fun b => p a * q b * sumN k' (fun z => u a z * f z * w z b))) =
  sumN k' (fun z => sumN k (fun a => p a * u a z) * f z * sumN k (fun b => q b * w z b)).
Proof.
  transitivity (sumN k (fun a => sumN k (fun b => sumN k' (fun z => p a * u a z * f z * (q b * w z b))))).
  { apply sumN_ext; intros a _; apply sumN_ext; intros b _. rewrite <- sumN_mul_l. apply sumN_ext; intros z _. ring. }
  transitivity (sumN k (fun a => sumN k' (fun z => p a * u a z * f z * sumN k (fun b => q b * w z b)))).
  { apply sumN_ext; intros a _. rewrite sumN_swap. apply sumN_ext; intros z _. now rewrite sumN_mul_l. }
  rewrite sumN_swap. apply sumN_ext; intros z _. rewrite sumN_mul_r. f_equal. now rewrite sumN_mul_r.
Qed.
Lemma iso_more d n k k' P (U : nat -> nat -> A) : iso d n k P -> (forall s s' z, agree n s s' -> P s z = P s' z) ->
  (forall y z, (y < k')%nat -> (z < k')%nat -> sumN (k * d) (fun p => U p y * U p z) = delta y z) ->
  iso d (S n) k' (fun s z => sumN k (fun x => P s x * U (x * d + s n)%nat z)).
Proof.
  intros I AG O y z Hy Hz. rewrite sumS_more.
  transitivity (sumS d n (fun s => sumN d (fun i => sumN k (fun x => P s x * U (x * d + i)%nat y) * sumN k (fun x => P s x * U (x * d + i)%nat z)))).
  - apply sumS_ext. intros s _. apply sumN_ext. intros i _. f_equal; apply sumN_ext; intros x _; (destruct (dec n n) as [_|F]; [|now destruct F]); f_equal; apply AG; intros j Hj; (destruct (dec j n); [lia|reflexivity]).
  - rewrite sumS_sumN. rewrite (sumN_ext d _ (fun i => sumN k (fun x => U (x * d + i)%nat y * U (x * d + i)%nat z))) by (intros i _; now rewrite (iso_sum d n k P _ _ I)).
    rewrite sumN_swap. rewrite <- (sumN_mul k d (fun p => U p y * U p z)). now apply O.
Qed.
Lemma div_pair x d y : (y < d)%nat -> ((x * d + y) / d)%nat = x. Proof. intros. rewrite Nat.div_add_l by lia. rewrite Nat.div_small by lia. lia. Qed.
Lemma mod_pair x d y : (y < d)%nat -> ((x * d + y) mod d)%nat = y. Proof. intros. rewrite Nat.add_comm, Nat.mod_add by lia. now apply Nat.mod_small. Qed.
Lemma pair_less x k d y : (x < k -> y < d -> x * d + y < k * d)%nat. Proof. nia. Qed.

Theorem sees_step n E sc sh sv lib chi E' nc nh nv : represents n E sc sh sv -> exact_cut H V T E lib chi -> scaled H V (step_env H V T E lib chi) E' nc nh nv ->
  represents (S n) E' (nc * sc * sh * sv) (nh * sh) (nv * sv).
Proof.
  intros (P & Q & S) EC SC. set (k := e_k E) in *.
  assert (K' : e_k E' = cut_k H V E chi) by apply (sc_k _ _ _ _ _ _ _ SC).
  exists (fun t z => sumN k (fun x => P t x * cut_u H V T E lib (x * V + t n)%nat z)), (fun s z => sumN k (fun y => Q s y * cut_v H V T E lib z (y * H + s n)%nat)).
  assert (BL : forall d (s : asg), below d (Datatypes.S n) s -> below d n s /\ (s n < d)%nat) by (intros d s Hs; split; [intros i Hi; apply Hs; lia|apply Hs; lia]).
  split.
  - intros s s' z AG. apply sumN_ext. intros x _. rewrite (sp_ag _ _ _ _ _ _ _ S s s') by (intros i Hi; apply AG; lia). now rewrite (AG n) by lia.
  - intros s s' z AG. apply sumN_ext. intros x _. rewrite (sq_ag _ _ _ _ _ _ _ S s s') by (intros i Hi; apply AG; lia). now rewrite (AG n) by lia.
  - rewrite K'. apply iso_more; [apply (sp_iso _ _ _ _ _ _ _ S)|apply (sp_ag _ _ _ _ _ _ _ S)|apply (ec_u _ _ _ _ _ _ EC)].
  - rewrite K'. apply (iso_more H n k (cut_k H V E chi) Q (fun p z => cut_v H V T E lib z p)); [apply (sq_iso _ _ _ _ _ _ _ S)|apply (sq_ag _ _ _ _ _ _ _ S)|apply (ec_v _ _ _ _ _ _ EC)].
  - intros hr vu Hh Hv. destruct (BL _ _ Hh) as [Hh' Hn], (BL _ _ Hv) as [Hv' Vn]. cbn [OpenProofs.quad].
    set (vv := fun d x => sumN k (fun c => P vu c * e_v E c d x)). set (hh := fun d y => sumN k (fun b => Q hr b * e_h E d b y)).
    transitivity (sumS H n (fun s => sumS V n (fun t => sumN H (fun x => sumN V (fun y => (sc * sh * sv * T x (hr n) (vu n) y) *
      ((sumN k (fun z => P t z * (e_c E z * Q s z))) * (sumN k (fun z => P t z * vv z x)) * (sumN k (fun z => Q s z * hh z y)))))))).
    { apply sumS_ext. intros s Hs. apply sumS_ext. intros t Ht. apply sumN_ext. intros x Hx. apply sumN_ext. intros y Hy.
      rewrite (s_quad _ _ _ _ _ _ _ S s t Hs Ht), (s_hcol _ _ _ _ _ _ _ S s hr y Hs Hh' Hy), (s_vrow _ _ _ _ _ _ _ S vu t x Hv' Ht Hx).
      rewrite (sumN_ext k (fun z => P t z * e_c E z * Q s z) (fun z => P t z * (e_c E z * Q s z))) by (intros; ring).
      rewrite (sumN_ext k (fun y0 => sumN k (fun z => Q s y0 * Q hr z * e_h E y0 z y)) (fun z => Q s z * hh z y)) by (intros z _; unfold hh; rewrite <- sumN_mul_l; apply sumN_ext; intros; ring).
      rewrite (sumN_swap k k). rewrite (sumN_ext k (fun j => sumN k (fun i => P vu i * P t j * e_v E i j x)) (fun z => P t z * vv z x)) by (intros z _; unfold vv; rewrite <- sumN_mul_l; apply sumN_ext; intros; ring).
      ring. }
    transitivity (sumN H (fun x => sumN V (fun y => (sc * sh * sv * T x (hr n) (vu n) y) * sumN k (fun z => e_c E z * vv z x * hh z y)))).
    { transitivity (sumS H n (fun s => sumN H (fun x => sumN V (fun y => (sc * sh * sv * T x (hr n) (vu n) y) * (sumN k (fun z => Q s z * (e_c E z * vv z x)) * sumN k (fun z => Q s z * hh z y)))))).
      - apply sumS_ext. intros s _. rewrite sumS_sumN. apply sumN_ext. intros x _. rewrite sumS_sumN. apply sumN_ext. intros y _. rewrite sumS_mul. f_equal.
        rewrite (sumN_ext k (fun z => Q s z * (e_c E z * vv z x)) (fun z => e_c E z * Q s z * vv z x)) by (intros; ring).
        rewrite <- (iso_sum V n k P (fun z => e_c E z * Q s z) (fun z => vv z x) (sp_iso _ _ _ _ _ _ _ S)).
        match goal with |- _ = _ * ?K => transitivity (K * sumS V n (fun t => sumN k (fun z => P t z * (e_c E z * Q s z)) * sumN k (fun z => P t z * vv z x))) end; [rewrite <- sumS_mul; apply sumS_ext; intros; ring|ring].
      - rewrite sumS_sumN. apply sumN_ext. intros x _. rewrite sumS_sumN. apply sumN_ext. intros y _. rewrite sumS_mul. f_equal. now rewrite (iso_sum H n k Q _ _ (sq_iso _ _ _ _ _ _ _ S)). }
    transitivity (sc * sh * sv * sumN k (fun c => sumN k (fun b => P vu c * Q hr b * ext_c H V T E (c * V + vu n) (b * H + hr n)))).
    { transitivity (sumN H (fun x => sumN V (fun y => sc * sh * sv * sumN k (fun c => sumN k (fun b => P vu c * Q hr b * sumN k (fun z => e_c E z * e_h E z b y * e_v E c z x * T x (hr n) (vu n) y)))))).
      - apply sumN_ext. intros x _. apply sumN_ext. intros y _. rewrite <- !sumN_mul_l.
        rewrite (sumN_ext k (fun i => sc * sh * sv * sumN k (fun b => P vu i * Q hr b * sumN k (fun z => e_c E z * e_h E z b y * e_v E i z x * T x (hr n) (vu n) y)))
          (fun c => sumN k (fun z => sc * sh * sv * T x (hr n) (vu n) y * (e_c E z * (P vu c * e_v E c z x) * hh z y)))).
        + rewrite sumN_swap. apply sumN_ext. intros z _. rewrite sumN_mul_l. f_equal. rewrite sumN_mul_r. f_equal. rewrite sumN_mul_l. reflexivity.
        + intros c _. rewrite <- sumN_mul_l. transitivity (sumN k (fun b => sumN k (fun z => sc * sh * sv * (P vu c * Q hr b * (e_c E z * e_h E z b y * e_v E c z x * T x (hr n) (vu n) y))))).
          * apply sumN_ext. intros b _. now rewrite sumN_mul_l, sumN_mul_l.
          * rewrite sumN_swap. apply sumN_ext. intros z _. unfold hh. rewrite <- !sumN_mul_l. apply sumN_ext. intros b _. ring.
      - rewrite (sumN_ext H _ (fun x => sc * sh * sv * sumN V (fun y => sumN k (fun c => sumN k (fun b => P vu c * Q hr b * sumN k (fun z => e_c E z * e_h E z b y * e_v E c z x * T x (hr n) (vu n) y)))))) by (intros x _; now rewrite sumN_mul_l).
        rewrite sumN_mul_l. f_equal. rewrite (sumN_ext H _ (fun x => sumN k (fun c => sumN V (fun y => sumN k (fun b => P vu c * Q hr b * sumN k (fun z => e_c E z * e_h E z b y * e_v E c z x * T x (hr n) (vu n) y)))))) by (intros x _; apply sumN_swap).
        rewrite sumN_swap. apply sumN_ext. intros c Hc. rewrite (sumN_ext H _ (fun x => sumN k (fun b => sumN V (fun y => P vu c * Q hr b * sumN k (fun z => e_c E z * e_h E z b y * e_v E c z x * T x (hr n) (vu n) y))))) by (intros x _; apply sumN_swap).
        rewrite sumN_swap. apply sumN_ext. intros b Hb. rewrite (sumN_ext H _ (fun x => P vu c * Q hr b * sumN V (fun y => sumN k (fun z => e_c E z * e_h E z b y * e_v E c z x * T x (hr n) (vu n) y)))) by (intros x _; now rewrite sumN_mul_l).
        rewrite sumN_mul_l. f_equal. unfold ext_c. rewrite !div_pair, !mod_pair by assumption. fold k.
        rewrite (sumN_ext H _ (fun x => sumN k (fun z => sumN V (fun y => e_c E z * e_h E z b y * e_v E c z x * T x (hr n) (vu n) y)))) by (intros x _; apply sumN_swap). apply sumN_swap. }
    transitivity (sc * sh * sv * sumN k (fun c => sumN k (fun b => P vu c * Q hr b * sumN (cut_k H V E chi) (fun z => cut_u H V T E lib (c * V + vu n) z * cut_s H V T E lib z * cut_v H V T E lib z (b * H + hr n))))).
    { f_equal. apply sumN_ext. intros c Hc. apply sumN_ext. intros b Hb. f_equal. apply (ec_corner _ _ _ _ _ _ EC); now apply pair_less. }
    rewrite (lift1 k _ (fun c => P vu c) (fun b => Q hr b) (fun c z => cut_u H V T E lib (c * V + vu n) z) (fun z b => cut_v H V T E lib z (b * H + hr n))). rewrite K'.
    transitivity (sc * sh * sv * sumN (cut_k H V E chi) (fun z => nc * (sumN k (fun x => P vu x * cut_u H V T E lib (x * V + vu n) z) * e_c E' z * sumN k (fun y => Q hr y * cut_v H V T E lib z (y * H + hr n))))).
    { f_equal. apply sumN_ext. intros z Hz. pose proof (sc_c _ _ _ _ _ _ _ SC z Hz) as X. cbn in X. rewrite X. ring. }
    rewrite sumN_mul_l. ring.
  - intros ls rs u Hl Hr Hu. destruct (BL _ _ Hl) as [Hl' Ln], (BL _ _ Hr) as [Hr' Rn].
    change (hcol (Datatypes.S n) ls rs u) with (sumN V (fun x => hcol n ls rs x * T (ls n) (rs n) u x)).
    transitivity (sh * sumN k (fun a => sumN k (fun b => Q ls a * Q rs b * ext_h H V T E (a * H + ls n) (b * H + rs n) u))).
    { transitivity (sumN V (fun x => sh * sumN k (fun a => sumN k (fun b => Q ls a * Q rs b * (e_h E a b x * T (ls n) (rs n) u x))))).
      - apply sumN_ext. intros x Hx. rewrite (s_hcol _ _ _ _ _ _ _ S ls rs x Hl' Hr' Hx). fold k. rewrite <- !sumN_mul_l, <- sumN_mul_r. apply sumN_ext. intros a _. rewrite <- !sumN_mul_l, <- sumN_mul_r. apply sumN_ext. intros b _. ring.
      - rewrite sumN_mul_l. f_equal. rewrite sumN_swap. apply sumN_ext. intros a _. rewrite sumN_swap. apply sumN_ext. intros b _. rewrite sumN_mul_l. f_equal. unfold ext_h. rewrite !div_pair, !mod_pair by assumption. reflexivity. }
    transitivity (sh * sumN k (fun a => sumN k (fun b => Q ls a * Q rs b * sumN (cut_k H V E chi) (fun y => sumN (cut_k H V E chi) (fun z => cut_v H V T E lib y (a * H + ls n) * cut_v H V T E lib z (b * H + rs n) * red_h H V T E lib y z u))))).
    { f_equal. apply sumN_ext. intros c Hc. apply sumN_ext. intros b Hb. f_equal. symmetry. apply (ec_hEdge _ _ _ _ _ _ EC); auto; now apply pair_less. }
    rewrite (lift2 k _ (fun c => Q ls c) (fun b => Q rs b) (fun c z => cut_v H V T E lib z (c * H + ls n)) (fun b z => cut_v H V T E lib z (b * H + rs n))). rewrite K'.
    rewrite <- !sumN_mul_l. apply sumN_ext. intros y Hy. rewrite <- !sumN_mul_l. apply sumN_ext. intros z Hz. pose proof (sc_h _ _ _ _ _ _ _ SC y z u Hy Hz Hu) as X. cbn in X. rewrite X. ring.
  - intros ls rs u Hl Hr Hu. destruct (BL _ _ Hl) as [Hl' Ln], (BL _ _ Hr) as [Hr' Rn].
    change (vrow (Datatypes.S n) ls rs u) with (sumN H (fun x => vrow n ls rs x * T x u (ls n) (rs n))).
    transitivity (sv * sumN k (fun a => sumN k (fun b => P ls a * P rs b * ext_v H V T E (a * V + ls n) (b * V + rs n) u))).
    { transitivity (sumN H (fun x => sv * sumN k (fun a => sumN k (fun b => P ls a * P rs b * (e_v E a b x * T x u (ls n) (rs n)))))).
      - apply sumN_ext. intros x Hx. rewrite (s_vrow _ _ _ _ _ _ _ S ls rs x Hl' Hr' Hx). fold k. rewrite <- !sumN_mul_l, <- sumN_mul_r. apply sumN_ext. intros a _. rewrite <- !sumN_mul_l, <- sumN_mul_r. apply sumN_ext. intros b _. ring.
      - rewrite sumN_mul_l. f_equal. rewrite sumN_swap. apply sumN_ext. intros a _. rewrite sumN_swap. apply sumN_ext. intros b _. rewrite sumN_mul_l. f_equal. unfold ext_v. rewrite !div_pair, !mod_pair by assumption. reflexivity. }
    transitivity (sv * sumN k (fun a => sumN k (fun b => P ls a * P rs b * sumN (cut_k H V E chi) (fun y => sumN (cut_k H V E chi) (fun z => cut_u H V T E lib (a * V + ls n) y * cut_u H V T E lib (b * V + rs n) z * red_v H V T E lib y z u))))).
    { f_equal. apply sumN_ext. intros c Hc. apply sumN_ext. intros b Hb. f_equal. symmetry. apply (ec_vEdge _ _ _ _ _ _ EC); auto; now apply pair_less. }
    rewrite (lift2 k _ (fun c => P ls c) (fun b => P rs b) (fun c z => cut_u H V T E lib (c * V + ls n) z) (fun b z => cut_u H V T E lib (b * V + rs n) z)). rewrite K'.
    rewrite <- !sumN_mul_l. apply sumN_ext. intros y Hy. rewrite <- !sumN_mul_l. apply sumN_ext. intros z Hz. pose proof (sc_v _ _ _ _ _ _ _ SC y z u Hy Hz Hu) as X. cbn in X. rewrite X. ring.
Qed.

Theorem even_seen n E sc sh sv : represents n E sc sh sv -> open_mirrored (2 * n) H V T = pow sc 4 * even_value E.
Proof.
  intros (P & Q & S). rewrite open_even. set (k := e_k E) in *.
  assert (QD : forall c a, below H n c -> below V n a -> quad n c a = sc * sumN k (fun z => Q c z * (P a z * e_c E z))).
  { intros c a Hc Ha. rewrite (s_quad _ _ _ _ _ _ _ S c a Hc Ha). f_equal. apply sumN_ext. intros; ring. }
  assert (QQ : forall a b, below V n a -> below V n b -> sumS H n (fun c => quad n c a * quad n c b) = sc * sc * sumN k (fun z => P b z * (P a z * (e_c E z * e_c E z)))).
  { intros a b Ha Hb. rewrite (sumN_ext k (fun z => P b z * (P a z * (e_c E z * e_c E z))) (fun z => (P a z * e_c E z) * (P b z * e_c E z))) by (intros; ring).
    rewrite <- (iso_sum H n k Q _ _ (sq_iso _ _ _ _ _ _ _ S)), <- sumS_mul. apply sumS_ext. intros c Hc. rewrite !QD by assumption. ring. }
  transitivity (sumS V n (fun a => sumS V n (fun b => (pow sc 4) * (sumN k (fun z => P b z * (P a z * (e_c E z * e_c E z))) * sumN k (fun z => P b z * (P a z * (e_c E z * e_c E z))))))).
  - apply sumS_ext. intros a Ha. apply sumS_ext. intros b Hb.
    transitivity (sumS H n (fun c => quad n c a * quad n c b) * sumS H n (fun c => quad n c a * quad n c b)).
    + rewrite <- sumS_mul. apply sumS_ext. intros c _. etransitivity; [apply (sumS_ext H n _ (fun d => quad n c a * quad n c b * (quad n d a * quad n d b))); intros; ring|]. rewrite sumS_mul. ring.
    + rewrite QQ by assumption. cbn [pow]. ring.
  - rewrite (sumS_ext V n _ (fun a => pow sc 4 * sumN k (fun z => pow (e_c E z) 4 * (P a z * P a z)))).
    + rewrite sumS_mul. f_equal. rewrite (sumS_sumN V n k (fun z a => pow (e_c E z) 4 * (P a z * P a z))). unfold even_value. apply sumN_ext. intros z Hz. rewrite sumS_mul, (sp_iso _ _ _ _ _ _ _ S z z Hz Hz). unfold delta. rewrite Nat.eqb_refl. ring.
    + intros a _. rewrite sumS_mul. f_equal. rewrite (iso_sum V n k P _ _ (sp_iso _ _ _ _ _ _ _ S)). apply sumN_ext. intros z _. cbn [pow]. ring.
Qed.
Lemma out8 (d1 d2 n m : nat) (F : nat -> asg -> asg -> asg -> asg -> asg -> asg -> asg -> asg -> A) :
  sumS d1 n (fun a1 => sumS d1 n (fun a2 => sumS d1 n (fun b1 => sumS d1 n (fun b2 => sumS d2 n (fun c1 => sumS d2 n (fun c2 => sumS d2 n (fun e1 => sumS d2 n (fun e2 => sumN m (fun i => F i a1 a2 b1 b2 c1 c2 e1 e2))))))))) =
  sumN m (fun i => sumS d1 n (fun a1 => sumS d1 n (fun a2 => sumS d1 n (fun b1 => sumS d1 n (fun b2 => sumS d2 n (fun c1 => sumS d2 n (fun c2 => sumS d2 n (fun e1 => sumS d2 n (fun e2 => F i a1 a2 b1 b2 c1 c2 e1 e2))))))))).
Proof.
  do 8 (rewrite <- sumS_sumN; apply sumS_ext; intros ? _). reflexivity.
Qed.
Lemma sumS_r d n k f : sumS d n (fun s => f s * k) = sumS d n f * k.
Proof. rewrite (sumS_ext d n _ (fun s => k * f s)) by (intros; ring). rewrite sumS_mul. ring. Qed.
Lemma prod4 k (f g : nat -> nat -> A) : sumN k (fun z' => sumN k (fun v' => f z' v')) * sumN k (fun z => sumN k (fun v => g z v)) =
  sumN k (fun v' => sumN k (fun v => sumN k (fun z' => sumN k (fun z => f z' v' * g z v)))).
Proof.
  rewrite (sumN_swap k k f), (sumN_swap k k g). rewrite <- sumN_mul_r. apply sumN_ext. intros v' _. rewrite <- sumN_mul_l. apply sumN_ext. intros v _. rewrite <- sumN_mul_r. apply sumN_ext. intros z' _. now rewrite <- sumN_mul_l.
Qed.
Lemma order4 k (F : nat -> nat -> nat -> nat -> A) : sumN k (fun v' => sumN k (fun v => sumN k (fun z' => sumN k (fun z => F v' v z' z)))) = sumN k (fun z' => sumN k (fun v' => sumN k (fun z => sumN k (fun v => F v' v z' z)))).
Proof.
  rewrite (sumN_ext k _ (fun v' => sumN k (fun z' => sumN k (fun v => sumN k (fun z => F v' v z' z))))) by (intros; apply sumN_swap).
  rewrite sumN_swap. apply sumN_ext. intros z' _. apply sumN_ext. intros v' _. apply sumN_swap.
Qed.
Lemma in4 m k (F : nat -> nat -> nat -> nat -> nat -> A) : sumN m (fun x => sumN k (fun a => sumN k (fun b => sumN k (fun c => sumN k (fun d => F x a b c d))))) =
  sumN k (fun a => sumN k (fun b => sumN k (fun c => sumN k (fun d => sumN m (fun x => F x a b c d))))).
Proof. do 3 (rewrite sumN_swap; apply sumN_ext; intros ? _). apply sumN_swap. Qed.
Theorem odd_seen n E sc sh sv : represents n E sc sh sv -> open_mirrored (2 * n + 1) H V T = pow sc 4 * pow sh 2 * pow sv 2 * odd_value H V T E.
Proof.
  intros (P & Q & S). rewrite open_odd. set (k := e_k E) in *.
  transitivity (sumN H (fun x => sumN H (fun x' => sumN V (fun y => sumN V (fun y' => 
    pow sc 4 * pow sh 2 * pow sv 2 * sumN k (fun v' => sumN k (fun v => sumN k (fun z' => sumN k (fun z => 
      e_c E z * e_c E v * e_c E z' * e_c E v' * (e_h E z v y * e_h E z' v' y' * e_v E z' z x * e_v E v' v x' * T x x' y' y)))))))))).
  - etransitivity; [apply out8|]. apply sumN_ext. intros x Hx.
    etransitivity; [apply out8|]. apply sumN_ext. intros x' Hx'.
    etransitivity; [apply out8|]. apply sumN_ext. intros y Hy.
    etransitivity; [apply out8|]. apply sumN_ext. intros y' Hy'.
    assert (QD : forall c a, below H n c -> below V n a -> quad n c a = sc * sumN k (fun z => Q c z * (P a z * e_c E z))).
    { intros c a Hc Ha. rewrite (s_quad _ _ _ _ _ _ _ S c a Hc Ha). f_equal. apply sumN_ext. intros; ring. }
    assert (SIDE : forall a b i, below V n a -> below V n b -> (i < V)%nat -> sumS H n (fun c => sumS H n (fun d => quad n c a * quad n d b * hcol n c d i)) =
      sc * sc * sh * sumN k (fun z => sumN k (fun v => P a z * e_c E z * (P b v * e_c E v) * e_h E z v i))).
    { intros a b i Ha Hb Hi. rewrite <- (iso_sum2 H n k Q (fun z v => P a z * e_c E z * (P b v * e_c E v)) (fun z v => e_h E z v i) (sq_iso _ _ _ _ _ _ _ S)).
      rewrite <- sumS_mul. apply sumS_ext. intros c Hc. rewrite <- sumS_mul. apply sumS_ext. intros d Hd. rewrite !QD, (s_hcol _ _ _ _ _ _ _ S c d i) by assumption. fold k.
      rewrite (sumN_ext k (fun y0 => sumN k (fun z => Q c y0 * Q d z * (P a y0 * e_c E y0 * (P b z * e_c E z)))) (fun z => Q c z * (P a z * e_c E z) * sumN k (fun v => Q d v * (P b v * e_c E v)))).
      - rewrite sumN_mul_r. ring.
      - intros z _. rewrite <- sumN_mul_l. apply sumN_ext. intros v _. ring. }
    transitivity (sumS V n (fun a1 => sumS V n (fun a2 => sumS V n (fun b1 => sumS V n (fun b2 => T x x' y' y * (vrow n a1 a2 x * vrow n b1 b2 x') *
      (sumS H n (fun c => sumS H n (fun d => quad n c a1 * quad n d b1 * hcol n c d y')) * sumS H n (fun c => sumS H n (fun d => quad n c a2 * quad n d b2 * hcol n c d y)))))))).
    { do 4 (apply sumS_ext; intros ? _). rewrite <- sumS_r, <- sumS_mul. apply sumS_ext. intros c1 _. rewrite <- sumS_r, <- sumS_mul. apply sumS_ext. intros c2 _.
      rewrite <- !sumS_mul. apply sumS_ext. intros e1 _. rewrite <- !sumS_mul. apply sumS_ext. intros e2 _. ring. }
    set (K := pow sc 4 * pow sh 2 * pow sv 2).
    transitivity (sumS V n (fun a1 => sumS V n (fun a2 => sumS V n (fun b1 => sumS V n (fun b2 => K * T x x' y' y *
      (sumN k (fun v' => sumN k (fun v => P b1 v' * P b2 v * sumN k (fun z' => sumN k (fun z => P a1 z' * P a2 z * (e_c E z * e_c E v * e_c E z' * e_c E v' * (e_h E z v y * e_h E z' v' y')))))) *
       sumN k (fun v' => sumN k (fun v => P b1 v' * P b2 v * (e_v E v' v x' * sumN k (fun z' => sumN k (fun z => P a1 z' * P a2 z * e_v E z' z x))))))))))).
    { apply sumS_ext. intros a1 Ha1. apply sumS_ext. intros a2 Ha2. apply sumS_ext. intros b1 Hb1. apply sumS_ext. intros b2 Hb2.
      rewrite !SIDE, (s_vrow _ _ _ _ _ _ _ S a1 a2 x), (s_vrow _ _ _ _ _ _ _ S b1 b2 x') by assumption. fold k.
      set (W := sumN k (fun z' => sumN k (fun z => P a1 z' * P a2 z * e_v E z' z x))).
      rewrite (sumN_ext k (fun v' => sumN k (fun v => P b1 v' * P b2 v * (e_v E v' v x' * W))) (fun v' => W * sumN k (fun v => P b1 v' * P b2 v * e_v E v' v x'))).
      2:{ intros v' _. rewrite <- sumN_mul_l. apply sumN_ext. intros; ring. }
      rewrite sumN_mul_l.
      match goal with |- _ = _ * (?X * _) => assert (PX : X = sumN k (fun z => sumN k (fun v => P a1 z * e_c E z * (P b1 v * e_c E v) * e_h E z v y')) * sumN k (fun z => sumN k (fun v => P a2 z * e_c E z * (P b2 v * e_c E v) * e_h E z v y))) end.
      { rewrite prod4. do 2 (apply sumN_ext; intros ? _). rewrite <- sumN_mul_l. apply sumN_ext. intros z' _. rewrite <- sumN_mul_l. apply sumN_ext. intros z _. ring. }
      rewrite PX. unfold K. cbn [pow]. ring. }
    transitivity (sumS V n (fun a1 => sumS V n (fun a2 => K * T x x' y' y * sumN k (fun v' => sumN k (fun v => e_v E v' v x' * (
       sumN k (fun z' => sumN k (fun z => P a1 z' * P a2 z * (e_c E z * e_c E v * e_c E z' * e_c E v' * (e_h E z v y * e_h E z' v' y')))) *
       sumN k (fun z' => sumN k (fun z => P a1 z' * P a2 z * e_v E z' z x)))))))).
    { apply sumS_ext. intros a1 _. apply sumS_ext. intros a2 _. rewrite (sumS_ext V n _ (fun b1 => K * T x x' y' y * sumS V n (fun b2 => _))) by (intros b1 _; now rewrite sumS_mul).
      rewrite sumS_mul. f_equal. rewrite (iso_sum2 V n k P _ _ (sp_iso _ _ _ _ _ _ _ S)). apply sumN_ext. intros v' _. apply sumN_ext. intros v _. ring. }
    rewrite (sumS_ext V n _ (fun b1 => K * T x x' y' y * sumS V n (fun b2 => _))) by (intros b1 _; now rewrite sumS_mul).
    rewrite sumS_mul.
    transitivity (K * T x x' y' y * sumN k (fun v' => sumN k (fun v => e_v E v' v x' * sumN k (fun z' => sumN k (fun z => e_c E z * e_c E v * e_c E z' * e_c E v' * (e_h E z v y * e_h E z' v' y') * e_v E z' z x))))).
    { f_equal. transitivity (sumS V n (fun a1 => sumN k (fun v' => sumN k (fun v => e_v E v' v x' * sumS V n (fun a2 => (
       sumN k (fun z' => sumN k (fun z => P a1 z' * P a2 z * (e_c E z * e_c E v * e_c E z' * e_c E v' * (e_h E z v y * e_h E z' v' y')))) *
       sumN k (fun z' => sumN k (fun z => P a1 z' * P a2 z * e_v E z' z x)))))))).
      - apply sumS_ext. intros a1 _. rewrite sumS_sumN. apply sumN_ext. intros v' _. rewrite sumS_sumN. apply sumN_ext. intros v _. now rewrite sumS_mul.
      - rewrite sumS_sumN. apply sumN_ext. intros v' _. rewrite sumS_sumN. apply sumN_ext. intros v _. rewrite sumS_mul. f_equal. apply (iso_sum2 V n k P _ _ (sp_iso _ _ _ _ _ _ _ S)). }
    rewrite <- !sumN_mul_l. apply sumN_ext. intros v' _. rewrite <- !sumN_mul_l. apply sumN_ext. intros v _. rewrite <- !sumN_mul_l. apply sumN_ext. intros z' _. rewrite <- !sumN_mul_l. apply sumN_ext. intros z _. ring.
  - set (K := pow sc 4 * pow sh 2 * pow sv 2). unfold odd_value. fold k.
    rewrite (sumN_ext H _ (fun x => sumN H (fun x' => sumN V (fun y => K * sumN k (fun z1 => sumN k (fun z2 => sumN k (fun z3 => sumN k (fun z4 => sumN V (fun y' => e_c E z1 * e_c E z2 * e_c E z3 * e_c E z4 * (e_v E z1 z3 x * e_v E z2 z4 x' * e_h E z3 z4 y * e_h E z1 z2 y' * T x x' y' y)))))))))).
    2:{ intros x _. apply sumN_ext. intros x' _. apply sumN_ext. intros y _. rewrite sumN_mul_l. f_equal. rewrite in4, order4. do 4 (apply sumN_ext; intros ? _). apply sumN_ext. intros y' _. ring. }
    rewrite (sumN_ext H _ (fun x => sumN H (fun x' => K * sumN k (fun z1 => sumN k (fun z2 => sumN k (fun z3 => sumN k (fun z4 => sumN V (fun y => sumN V (fun y' => e_c E z1 * e_c E z2 * e_c E z3 * e_c E z4 * (e_v E z1 z3 x * e_v E z2 z4 x' * e_h E z3 z4 y * e_h E z1 z2 y' * T x x' y' y)))))))))) by (intros x _; apply sumN_ext; intros x' _; rewrite sumN_mul_l; f_equal; apply in4).
    rewrite (sumN_ext H _ (fun x => K * sumN k (fun z1 => sumN k (fun z2 => sumN k (fun z3 => sumN k (fun z4 => sumN H (fun x' => sumN V (fun y => sumN V (fun y' => e_c E z1 * e_c E z2 * e_c E z3 * e_c E z4 * (e_v E z1 z3 x * e_v E z2 z4 x' * e_h E z3 z4 y * e_h E z1 z2 y' * T x x' y' y)))))))))) by (intros x _; rewrite sumN_mul_l; f_equal; apply in4).
    rewrite sumN_mul_l. f_equal. rewrite in4. do 4 (apply sumN_ext; intros ? _). do 4 (rewrite <- sumN_mul_l; apply sumN_ext; intros ? _). reflexivity.
Qed.
End Val.
