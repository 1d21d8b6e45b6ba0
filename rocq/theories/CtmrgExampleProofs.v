(** Concrete runs of CTMRG. *)
From Coq Require Import List Arith Bool String Lia ZArith QArith Qcanon.
From Verif Require Import Base Sums NdModel NdProofs HeapModel FuncsModel TensorModel TensorSpec SvdModel SvdSpec CanonModel ContractModel FtnModel NamedSpec NetsModel NamedMatProofs TrgModel TrgSpec TrgProofs DiagNetSpec OpenSpec OpenSplitProofs
  CtmrgModel CtmrgSpec CtmrgInitProofs CtmrgRunSpec ImpurityExampleProofs TrgExampleProofs SearchProps.
From Verif Require Import NetsProofs.
Import ListNotations.
Local Open Scope nat_scope.
Local Open Scope string_scope.
Local Open Scope list_scope.

(** ** A test for exact_cut *)
Section Test.
Context {A : Type} {HA : SR A}.
Variable eqb : A -> A -> bool.
Hypothesis eqb_ok : forall x y, eqb x y = true -> x = y.
Definition all (n : nat) (f : nat -> bool) : bool := forallb f (seq 0 n).
Lemma all_ok n f : all n f = true -> forall i, i < n -> f i = true.
Proof. unfold all. rewrite forallb_forall. intros E i Hi. apply E. apply in_seq. lia. Qed.
Definition corner_cut_test (H V : nat) (T : nat -> nat -> nat -> nat -> A) (E : env A) (lib : linalg A) (chi : nat) : bool :=
  let P := e_k E * V in let Q := e_k E * H in let k := cut_k H V E chi in
  all P (fun p => all Q (fun q => eqb (ext_c H V T E p q) (sumN k (fun z => rmul (rmul (cut_u H V T E lib p z) (cut_s H V T E lib z)) (cut_v H V T E lib z q))))) &&
  all k (fun y => all k (fun z => eqb (sumN P (fun p => rmul (cut_u H V T E lib p y) (cut_u H V T E lib p z))) (if Nat.eqb y z then r1 else r0))) &&
  all k (fun y => all k (fun z => eqb (sumN Q (fun q => rmul (cut_v H V T E lib y q) (cut_v H V T E lib z q))) (if Nat.eqb y z then r1 else r0))).
Definition cut_test (H V : nat) (T : nat -> nat -> nat -> nat -> A) (E : env A) (lib : linalg A) (chi : nat) : bool :=
  let P := e_k E * V in let Q := e_k E * H in let k := cut_k H V E chi in
  corner_cut_test H V T E lib chi &&
  all P (fun p => all P (fun q => all H (fun r => eqb (sumN k (fun y => sumN k (fun z => rmul (rmul (cut_u H V T E lib p y) (cut_u H V T E lib q z)) (red_v H V T E lib y z r)))) (ext_v H V T E p q r)))) &&
  all Q (fun p => all Q (fun q => all V (fun u => eqb (sumN k (fun y => sumN k (fun z => rmul (rmul (cut_v H V T E lib y p) (cut_v H V T E lib z q)) (red_h H V T E lib y z u)))) (ext_h H V T E p q u)))).
Lemma all2_ok n m f : all n (fun i => all m (f i)) = true -> forall i j, i < n -> j < m -> f i j = true.
Proof. intros X i j Hi Hj. exact (all_ok _ _ (all_ok _ _ X i Hi) j Hj). Qed.
Lemma all3_ok n m o f : all n (fun i => all m (fun j => all o (f i j))) = true -> forall i j l, i < n -> j < m -> l < o -> f i j l = true.
Proof. intros X i j l Hi Hj Hl. exact (all_ok _ _ (all2_ok _ _ _ X i j Hi Hj) l Hl). Qed.
Lemma corner_cut_ok H V T E lib chi : svd_shape lib (ext_mat H V T E) (e_k E * V) (e_k E * H) -> corner_cut_test H V T E lib chi = true -> corner_cut H V T E lib chi.
Proof.
  intros S C. unfold corner_cut_test in C. cbv zeta in C. apply andb_prop in C as (C & C3). apply andb_prop in C as (C1 & C2).
  split; [exact S|..]; intros; apply eqb_ok; [apply (all2_ok _ _ _ C1)|apply (all2_ok _ _ _ C2)|apply (all2_ok _ _ _ C3)]; assumption.
Qed.
Lemma cut_test_ok H V T E lib chi : svd_shape lib (ext_mat H V T E) (e_k E * V) (e_k E * H) -> cut_test H V T E lib chi = true -> exact_cut H V T E lib chi.
Proof.
  intros S C. unfold cut_test in C. cbv zeta in C. apply andb_prop in C as (C & C5). apply andb_prop in C as (C & C4). destruct (corner_cut_ok _ _ _ _ _ _ S C) as [a b c d].
  split; auto; intros; apply eqb_ok; [apply (all3_ok _ _ _ _ C4)|apply (all3_ok _ _ _ _ C5)]; assumption.
Qed.
End Test.

(** ** Independent columns of rank one *)
Definition qc (x : Q) : Qc := Q2Qc x.
Definition eqQ (x y : Qc) : bool := if Qc_eq_dec x y then true else false.
Lemma eqQ_ok x y : eqQ x y = true -> x = y. Proof. unfold eqQ. destruct (Qc_eq_dec x y); congruence. Qed.
(** the decomposition of a column of length 2 in the direction (3, 4) *)
Definition svd34 (m : arr Qc) : arr Qc * arr Qc * arr Qc :=
  (mkArr [2; 2] (map qc [3 # 5; - (4 # 5); 4 # 5; 3 # 5]%Q), mkArr [1] [(qc (3 # 5) * aget m [O; O] + qc (4 # 5) * aget m [S O; O])%Qc], mkArr [1; 1] [1%Qc]).
Definition lib34 : linalg Qc := mkLinalg svd34 (fun x => x) (fun _ => true).
Definition num34 : numerics Qc Qc := mkNum lib34 (fun x => x) (fun a => fold_right Qcplus 0%Qc (adata a)) Qcdiv (fun x => x) 1%Qc Qcmult (fun x _ => x).
Definition exp34 : exponential Qc Qc := mkExp (fun x => x) (fun n x => pow x n).
Lemma exp34_ok : exp_ok num34 exp34. Proof. split; reflexivity. Qed.
Lemma norm34_ok n : eqQ n 0%Qc = false -> good_norm num34 exp34 n.
Proof.
  intros E. split; [|reflexivity]. intros x. unfold eqQ in E. destruct (Qc_eq_dec n 0) as [|N]; [discriminate|]. cbn. field. exact N.
Qed.
Definition a34 : arr Qc := mkArr [1; 1; 2; 2] (map qc [9; 12; 12; 16]%Q).
Definition T34 (l r u d : nat) : Qc := aget a34 [l; r; u; d].
Definition w34 := fst (lift (mkDense None (Some (map NStr ["l"; "r"; "u"; "d"])) (Some a34) None None false) (empty 0%Qc)).
Definition test34 (r : world Qc * res (ctmrg Qc Qc)) (value : Qc) : bool :=
  match r with
  | (w1, Ok g1) => cut_test eqQ 1 2 T34 (genv w1 g1 1) lib34 3 &&
    match iterateC sd 40 num34 g1 w1 with
    | (w2, Ok (g2, (nc, nh, nv))) => negb (eqQ nc 0%Qc) && negb (eqQ nh 0%Qc) && negb (eqQ nv 0%Qc) &&
      match getZ sd 40 num34 exp34 g2 4 w2 with (w3, Ok (g3, z)) => eqQ z value | _ => false end
    | _ => false
    end
  | _ => false
  end.
Lemma shape34 m : svd_shape lib34 m 2 1. Proof. split; split; reflexivity. Qed.
Lemma site_made {A} {HA : SR A} (z : A) (a : arr A) H V w : wfa a -> ashape a = [H; H; V; V] -> w = fst (lift (mkDense None (Some (map NStr ["l"; "r"; "u"; "d"])) (Some a) None None false) (empty z)) ->
  match snd (mkDense None (Some (map NStr ["l"; "r"; "u"; "d"])) (Some a) None None false (w_heap (empty z))) with Ok _ => true | _ => false end = true -> site_tensor (w_heap w) 0 H V.
Proof.
  intros W S -> O. unfold lift. destruct (mkDense None (Some (map NStr ["l"; "r"; "u"; "d"])) (Some a) None None false (w_heap (empty z))) as (h & [t|e]) eqn:E; [|discriminate O]. cbn [fst with_heap w_heap].
  destruct (new_data _ ["l"; "r"; "u"; "d"] a _ _ W E ltac:(now apply nodupb_ok)) as (N & D & _). rewrite S in D. pose proof (nt_id _ _ _ _ N) as ->. exact D.
Qed.
Lemma site34 : site_tensor (w_heap w34) 0 1 2.
Proof. apply (site_made 0%Qc a34 1 2 w34); [reflexivity|reflexivity|reflexivity|vm_compute; reflexivity]. Qed.
Lemma entry34 l r u d : site_entry (w_heap w34) 0 l r u d = T34 l r u d.
Proof. reflexivity. Qed.
Lemma test34_ok r value : test34 r value = true -> exists w1 g1 w2 g2 nc nh nv w3 g3, r = (w1, Ok g1) /\ cut_test eqQ 1 2 T34 (genv w1 g1 1) lib34 3 = true /\ iterateC sd 40 num34 g1 w1 = (w2, Ok (g2, (nc, nh, nv))) /\
  eqQ nc 0%Qc = false /\ eqQ nh 0%Qc = false /\ eqQ nv 0%Qc = false /\ getZ sd 40 num34 exp34 g2 4 w2 = (w3, Ok (g3, value)).
Proof.
  unfold test34. destruct r as (w1 & [g1|]); [|discriminate]. intros E. apply andb_prop in E as (E1 & E). destruct (iterateC sd 40 num34 g1 w1) as (w2 & [(g2 & ((nc & nh) & nv))|]) eqn:R2; [|discriminate]. apply andb_prop in E as (E & E3). apply andb_prop in E as (E & N3). apply andb_prop in E as (N1 & N2).
  destruct (getZ sd 40 num34 exp34 g2 4 w2) as (w3 & [(g3 & z)|]) eqn:R3; [|discriminate]. apply eqQ_ok in E3. subst z. apply negb_true_iff in N1, N2, N3. exists w1, g1, w2, g2, nc, nh, nv, w3, g3. repeat (split; [assumption || reflexivity|]). exact R3.
Qed.
Lemma tested34 : test34 (newCtmrg sd 40 num34 0 3 w34) (qc (inject_Z ((49 * 25 ^ 3) ^ 4))) = true.
Proof. vm_compute. reflexivity. Qed.
Lemma cut34 : cut_test eqQ 1 2 T34 no_sites lib34 3 = true.
Proof. vm_compute. reflexivity. Qed.
Lemma run34 : exists w1 g1 w2 g2 w3 g3, newCtmrg sd 40 num34 0 3 w34 = (w1, Ok g1) /\ exact_run sd 40 num34 exp34 1 2 T34 3 1 w1 g1 /\ exact_run sd 40 num34 exp34 1 2 T34 3 2 w2 g2 /\
  getZ sd 40 num34 exp34 g2 4 w2 = (w3, Ok (g3, qc (inject_Z ((49 * 25 ^ 3) ^ 4)))).
Proof.
  destruct (test34_ok _ _ tested34) as (w1 & g1 & w2 & g2 & nc & nh & nv & w3 & g3 & R1 & C1 & R2 & N1 & N2 & N3 & R3).
  assert (X1 : exact_run sd 40 num34 exp34 1 2 T34 3 1 w1 g1) by (apply (er_new _ _ _ _ _ _ _ _ w34 w1 0 g1 R1 site34 entry34); apply (cut_test_ok eqQ eqQ_ok); [apply shape34|exact cut34]).
  exists w1, g1, w2, g2, w3, g3. split; [exact R1|]. split; [exact X1|]. split; [|exact R3].
  apply (er_iterate _ _ _ _ _ _ _ _ 1 w1 w2 g1 g2 1 nc nh nv X1 R2); try (now apply norm34_ok).
  - pose proof (newCtmrg_ok sd sd_ok 40 num34 w34 w1 0 3 g1 1 2 R1 site34 (shape34 _)) as (CS & _). apply CS.
  - apply (cut_test_ok eqQ eqQ_ok); [apply shape34|exact C1].
Qed.

(** ** A tensor that is not the same upside down *)
Definition idsvd (m : arr Z) : arr Z * arr Z * arr Z :=
  (mkArr [2; 2] [1; 0; 0; 1]%Z, mkArr [2] [aget m [0; 0]; aget m [1; 1]], mkArr [2; 2] [1; 0; 0; 1]%Z).
Definition libI2 : linalg Z := mkLinalg idsvd (fun x => x) (fun _ => true).
Definition numI2 : numerics Z Z := mkNum libI2 (fun x => x) (fun _ => 1%Z) (fun x _ => x) (fun x => x) 1%Z Z.mul (fun x _ => x).
Definition expI2 : exponential Z Z := mkExp (fun x => x) (fun n x => pow x n).
Lemma expI2_ok : exp_ok numI2 expI2. Proof. split; reflexivity. Qed.
Definition aTop : arr Z := tab [2; 2; 2; 2] (fun i => match i with [l; r; u; d] => if Nat.eqb l u && Nat.eqb u r && negb (Nat.eqb d u) then Z.of_nat (u + 2) else 0%Z | _ => 0%Z end).
Definition TTop (l r u d : nat) : Z := aget aTop [l; r; u; d].
Definition wTop := fst (lift (mkDense None (Some (map NStr ["l"; "r"; "u"; "d"])) (Some aTop) None None false) (empty 0%Z)).
Lemma siteTop : site_tensor (w_heap wTop) 0 2 2.
Proof. apply (site_made 0%Z aTop 2 2 wTop); [reflexivity|reflexivity|reflexivity|vm_compute; reflexivity]. Qed.
Lemma entryTop l r u d : site_entry (w_heap wTop) 0 l r u d = TTop l r u d.
Proof. reflexivity. Qed.
Definition testTop (r : world Z * res (ctmrg Z Z)) : bool :=
  match r with (w1, Ok g1) => match getZ sd 40 numI2 expI2 g1 2 w1 with (w2, Ok (g2, z)) => Z.eqb z 97 | _ => false end | _ => false end.
Lemma testedTop : testTop (newCtmrg sd 40 numI2 0 4 wTop) = true.
Proof. vm_compute. reflexivity. Qed.
Lemma cutTop : cut_test Z.eqb 2 2 TTop no_sites libI2 4 = true.
Proof. vm_compute. reflexivity. Qed.
Lemma runTop : exists w1 g1 w2 g2, exact_run sd 40 numI2 expI2 2 2 TTop 4 1 w1 g1 /\ getZ sd 40 numI2 expI2 g1 2 w1 = (w2, Ok (g2, 97%Z)).
Proof.
  pose proof testedTop as E. unfold testTop in E. destruct (newCtmrg sd 40 numI2 0 4 wTop) as (w1 & [g1|]) eqn:R1; [|discriminate]. destruct (getZ sd 40 numI2 expI2 g1 2 w1) as (w2 & [(g2 & z)|]) eqn:R2; [|discriminate]. apply Z.eqb_eq in E. subst z.
  exists w1, g1, w2, g2. split; [|exact R2]. apply (er_new _ _ _ _ _ _ _ _ wTop w1 0 g1 R1 siteTop entryTop). apply (cut_test_ok Z.eqb (fun x y => proj1 (Z.eqb_eq x y))); [|exact cutTop]. split; split; reflexivity.
Qed.
Lemma valueTop : open_lattice 2 2 2 TTop = 72%Z.
Proof. vm_compute. reflexivity. Qed.

(** ** Independent columns; the corners lose nothing, the edges do *)
Definition svdE (m : arr Qc) : arr Qc * arr Qc * arr Qc :=
  if eqQ (aget m [0; 0]) 0%Qc then (mkArr [2; 2] [0; 1; 1; 0]%Qc, mkArr [1] [aget m [1; 0]], mkArr [1; 1] [1%Qc]) else svd34 m.
Definition libE : linalg Qc := mkLinalg svdE (fun x => x) (fun _ => true).
Definition numE : numerics Qc Qc := mkNum libE (fun x => x) (fun a => fold_right Qcplus 0%Qc (adata a)) Qcdiv (fun x => x) 1%Qc Qcmult (fun x _ => x).
Definition expE : exponential Qc Qc := mkExp (fun x => x) (fun n x => pow x n).
Definition aE : arr Qc := mkArr [1; 1; 2; 2] (map qc [12; -9; -9; 13]%Q).
Definition TE (l r u d : nat) : Qc := aget aE [l; r; u; d].
Definition wE := fst (lift (mkDense None (Some (map NStr ["l"; "r"; "u"; "d"])) (Some aE) None None false) (empty 0%Qc)).
Lemma siteE : site_tensor (w_heap wE) 0 1 2.
Proof. apply (site_made 0%Qc aE 1 2 wE); [reflexivity|reflexivity|reflexivity|vm_compute; reflexivity]. Qed.
Definition testE (r : world Qc * res (ctmrg Qc Qc)) : bool :=
  match r with
  | (w1, Ok g1) => corner_cut_test eqQ 1 2 TE (genv w1 g1 1) libE 3 &&
    match iterateC sd 40 numE g1 w1 with
    | (w2, Ok (g2, (nc, nh, nv))) => negb (eqQ nc 0%Qc) && negb (eqQ nh 0%Qc) && negb (eqQ nv 0%Qc) &&
      match getZ sd 40 numE expE g2 4 w2 with (w3, Ok (g3, z)) => eqQ z (qc (inject_Z (500 ^ 4))) | _ => false end
    | _ => false
    end
  | _ => false
  end.
Lemma testE_ok r : testE r = true -> exists w1 g1 w2 g2 nc nh nv w3 g3, r = (w1, Ok g1) /\ corner_cut_test eqQ 1 2 TE (genv w1 g1 1) libE 3 = true /\ iterateC sd 40 numE g1 w1 = (w2, Ok (g2, (nc, nh, nv))) /\
  eqQ nc 0%Qc = false /\ eqQ nh 0%Qc = false /\ eqQ nv 0%Qc = false /\ getZ sd 40 numE expE g2 4 w2 = (w3, Ok (g3, qc (inject_Z (500 ^ 4)))).
Proof.
  unfold testE. destruct r as (w1 & [g1|]); [|discriminate]. intros E. apply andb_prop in E as (E1 & E). destruct (iterateC sd 40 numE g1 w1) as (w2 & [(g2 & ((nc & nh) & nv))|]) eqn:R2; [|discriminate]. apply andb_prop in E as (E & E3). apply andb_prop in E as (E & N3). apply andb_prop in E as (N1 & N2).
  destruct (getZ sd 40 numE expE g2 4 w2) as (w3 & [(g3 & z)|]) eqn:R3; [|discriminate]. apply eqQ_ok in E3. subst z. apply negb_true_iff in N1, N2, N3. exists w1, g1, w2, g2, nc, nh, nv, w3, g3. repeat (split; [assumption || reflexivity|]). exact R3.
Qed.
Lemma testedE : testE (newCtmrg sd 40 numE 0 3 wE) = true.
Proof. vm_compute. reflexivity. Qed.
Lemma cornerE : corner_cut_test eqQ 1 2 TE no_sites libE 3 = true.
Proof. vm_compute. reflexivity. Qed.
Lemma shapeE m : svd_shape libE m 2 1.
Proof. split; unfold svd_u, svd_s, svd_v; cbn [libE np_svd]; unfold svdE; destruct (eqQ _ _); split; reflexivity. Qed.
Lemma valueE : open_mirrored 4 1 2 TE = qc (inject_Z (625 ^ 4)).
Proof. change 4 with (2 * 2). rewrite open_even. vm_compute. reflexivity. Qed.
