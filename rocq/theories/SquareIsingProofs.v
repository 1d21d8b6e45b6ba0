(** The tensors of the square lattice Ising model. *)
From Coq Require Import List Arith Bool Lia String ZArith Permutation Reals Lra.
From Verif Require Import Base Sums FuncsModel FuncsSpec NdModel HeapModel TensorModel TensorSpec ContractModel SvdModel FtnModel NetSpec NamedSpec NetsModel NetsSpec SearchSpec SearchModel TorusSpec DoubleSpec TrgModel TrgSpec HotrgModel MomentSpec ImpurityModel ImpuritySpec
  NdProofs TensorProofs ShareProofs NetsProofs FuncsProofs LabelProofs NamedProofs NamedMatProofs TorusProofs TrgProofs HotrgProofs MomentProofs ImpurityProofs RealSR SquareIsingModel SquareIsingSpec.
Import ListNotations.
Local Open Scope nat_scope.
Local Open Scope string_scope.

(** ** Single squares *)
Ltac bits u := destruct u as [|[|u]]; [| |lia].
Lemma energy_val (w : nat -> R) a b c d : a < 2 -> b < 2 -> c < 2 -> d < 2 ->
  localEnergy w [a; b; c; d] = (- (w 0%nat * spin a * spin b + w 1%nat * spin b * spin c + w 0%nat * spin c * spin d + w 1%nat * spin d * spin a))%R.
Proof. intros Ha Hb Hc Hd. bits a; bits b; bits c; bits d; unfold localEnergy, spin; cbn; ring. Qed.
Lemma measure_val obs u l d r : known obs -> u < 2 -> l < 2 -> d < 2 -> r < 2 -> squareTensorMeasure [u; l; d; r] obs = Ok (observable obs u l d r).
Proof.
  intros K Hu Hl Hd Hr. destruct obs as [o|]; [|reflexivity]. cbn [squareTensorMeasure observable]. destruct K as [->| ->].
  - change (Ok (fold_left (fun m x => if Nat.eqb x 0 then (m - / 2)%R else (m + / 2)%R) [u; l; d; r] 0%R) = Ok (square_spin u l d r)). f_equal. unfold square_spin, spin. bits u; bits l; bits d; bits r; cbn; field.
  - change (Ok (localEnergy (fun _ => 1%R) [u; l; d; r]) = Ok (square_energy u l d r)). rewrite energy_val by assumption. f_equal. unfold square_energy. ring.
Qed.
Lemma measure_err obs idx : ~ known obs -> squareTensorMeasure idx obs = Err AssertionError.
Proof.
  intros K. destruct obs as [o|]; [|destruct K; exact I]. cbn [squareTensorMeasure]. unfold assertInSet. cbn [known] in K. destruct (inb o ["M"; "E"]) eqn:E; [|reflexivity].
  apply inb_true in E. destruct K. destruct E as [<-|[<-|[]]]; auto.
Qed.

(** ** Filling the array *)
Definition number (u l d r : nat) : nat := u + 2 * l + 4 * d + 8 * r.
Lemma number_bits u l d r : u < 2 -> l < 2 -> d < 2 -> r < 2 -> intToBitTuple (number u l d r) 4 = [u; l; d; r].
Proof. intros Hu Hl Hd Hr. bits u; bits l; bits d; bits r; reflexivity. Qed.
Lemma number_range u l d r : u < 2 -> l < 2 -> d < 2 -> r < 2 -> number u l d r < 16.
Proof. unfold number. lia. Qed.
Lemma bits_number s : s < 16 -> exists u l d r, u < 2 /\ l < 2 /\ d < 2 /\ r < 2 /\ s = number u l d r.
Proof.
  intros H. unfold number. exists (s mod 2), ((s / 2) mod 2), ((s / 4) mod 2), (s / 8).
  do 16 (destruct s as [|s]; [cbn; lia|]). lia.
Qed.
Definition table (f : nat -> R) : arr R := mkArr [2; 2; 2; 2] (map f [0; 8; 4; 12; 2; 10; 6; 14; 1; 9; 5; 13; 3; 11; 7; 15]).
Lemma table_wf f : wfa (table f). Proof. reflexivity. Qed.
Lemma table_get f u l d r : u < 2 -> l < 2 -> d < 2 -> r < 2 -> aget (table f) [u; l; d; r] = f (number u l d r).
Proof. intros Hu Hl Hd Hr. bits u; bits l; bits d; bits r; reflexivity. Qed.
Lemma fill_one f : fold_left (fun data s => aset data (intToBitTuple s 4) (f s)) (seq 0 16) zeros4 = table f.
Proof. reflexivity. Qed.
Lemma fill_two f g : fold_left (fun data s => let idx := intToBitTuple s 4 in let data := aset data idx (f s) in aset data idx (aget data idx * g s)%R) (seq 0 16) zeros4 = table (fun s => (f s * g s)%R).
Proof. reflexivity. Qed.
Lemma rfold_ok {S X} (f : S -> X -> res S) (g : S -> X -> S) l : (forall s x, In x l -> f s x = Ok (g s x)) -> forall s, rfold f l s = Ok (fold_left g l s).
Proof.
  induction l as [|x l IH]; intros E s; [reflexivity|]. cbn [rfold fold_left]. rewrite E by now left. apply IH. intros. apply E. now right.
Qed.
Lemma fold_ext {S X} (f g : S -> X -> S) l : (forall s x, In x l -> f s x = g s x) -> forall s, fold_left f l s = fold_left g l s.
Proof. induction l as [|x l IH]; intros E s; [reflexivity|]. cbn [fold_left]. rewrite E by now left. apply IH. intros. apply E. now right. Qed.

(** ** The tensors *)
Lemma made (h : heap R) labs f : List.length labs = 4 -> NoDup labs ->
  exists h' t, mkDense None (Some (map NStr labs)) (Some (table f)) None None false h = (h', Ok t) /\ new_tensor h h' t None /\ dense_legs h' t (map (fun n => (n, 2)) labs) /\
    forall a b c d, a < 2 -> b < 2 -> c < 2 -> d < 2 -> at_ h' t (combine labs [a; b; c; d]) = f (number a b c d).
Proof.
  intros L ND. destruct labs as [|l1 [|l2 [|l3 [|l4 [|]]]]]; try discriminate.
  assert (E : exists h' t, mkDense None (Some (map NStr [l1; l2; l3; l4])) (Some (table f)) None None false h = (h', Ok t)) by (do 2 eexists; reflexivity).
  destruct E as (h' & t & E). exists h', t. split; [exact E|]. destruct (new_data h [l1; l2; l3; l4] (table f) h' t (table_wf f) E ND) as (NT & DL & EV). split; [exact NT|]. split; [exact DL|].
  intros a b c d Ha Hb Hc Hd. rewrite EV. { now apply table_get. } unfold inrange. cbn [ashape table]. do 4 (constructor; [assumption|]). constructor.
Qed.
Lemma square_tensor beta obs b (h : heap R) : known obs -> exists h' t, squareIsingTensor beta obs b h = (h', Ok (t, Some 2)) /\ new_tensor h h' t None /\ square h' t 2 2 /\
  forall u l d r, u < 2 -> l < 2 -> d < 2 -> r < 2 -> entry4 h' t u l d r = site_weight beta b obs u l d r.
Proof.
  intros K. set (ob := fun o s => match squareTensorMeasure (intToBitTuple s 4) o with Ok x => x | Err _ => 0%R end).
  set (f := fun s => (ob obs s * exp (- beta * localEnergy (fun _ => 1) (intToBitTuple s 4)))%R). set (g := fun s => exp (b * ob (Some "M") s)%R).
  assert (OB : forall o s, known o -> s < 16 -> squareTensorMeasure (intToBitTuple s 4) o = Ok (ob o s)).
  { intros o s Ko Hs. unfold ob. destruct (bits_number s Hs) as (u & l & d & r & Hu & Hl & Hd & Hr & ->). rewrite number_bits by assumption. now rewrite measure_val. }
  destruct (made h ["u"; "l"; "d"; "r"] (fun s => (f s * g s)%R)) as (h' & t & E & NT & DL & EV); [reflexivity|apply nodupb_ok; reflexivity|].
  exists h', t. split.
  { unfold squareIsingTensor, bind, liftR. rewrite (rfold_ok _ (fun data s => let idx := intToBitTuple s 4 in let data := aset data idx (f s) in aset data idx (aget data idx * g s)%R)).
    - rewrite fill_two. cbn beta iota. rewrite E. reflexivity.
    - intros data s Hs. apply in_seq in Hs. cbn zeta. rewrite !OB by (try exact K; cbn; auto; lia). reflexivity. }
  split; [exact NT|]. split; [exact DL|]. intros u l d r Hu Hl Hd Hr. unfold entry4. change [("u", u); ("l", l); ("d", d); ("r", r)] with (combine ["u"; "l"; "d"; "r"] [u; l; d; r]). rewrite EV by assumption.
  unfold f, g, ob, site_weight. rewrite number_bits, !measure_val, energy_val by (try assumption; cbn; auto).
  cbn [observable]. destruct (dec "M" "M") as [_|Ne]; [|congruence]. do 4 f_equal. unfold square_energy. ring.
Qed.
Lemma square_tensor_err beta obs b (h : heap R) : ~ known obs -> squareIsingTensor beta obs b h = (h, Err AssertionError).
Proof.
  intros K. unfold squareIsingTensor, bind, liftR. cbn [seq rfold]. cbn zeta. rewrite (measure_err obs _ K). reflexivity.
Qed.

Lemma plaquette_tensor weight w0 w1 diamond (h : heap R) : two_weights weight w0 w1 ->
  let labs := if diamond : bool then ["r"; "d"; "l"; "u"] else ["ru"; "rd"; "ld"; "lu"] in
  exists h' t, plaquetteIsingTensor weight diamond h = (h', Ok (t, Some 2)) /\ new_tensor h h' t None /\ dense_legs h' t (map (fun n => (n, 2)) labs) /\
  forall a b c d, a < 2 -> b < 2 -> c < 2 -> d < 2 -> at_ h' t (combine labs [a; b; c; d]) = exp (- pair_energy w0 w1 a b c d).
Proof.
  intros W labs. set (f := fun s => exp (- localEnergy (fun i => nth i [w0; w1] 0%R) (intToBitTuple s 4))%R).
  destruct (made h labs f) as (h' & t & E & NT & DL & EV); [destruct diamond; reflexivity|destruct diamond; apply nodupb_ok; reflexivity|].
  exists h', t. split.
  { unfold plaquetteIsingTensor. transitivity (bind (mkDense None (Some (map NStr labs)) (Some (table f)) None None false) (fun t => ret (t, Some 2)) h).
    - rewrite <- fill_one. destruct weight as [w|ws]; cbn [two_weights] in W; [destruct W as (-> & ->)|subst ws]; reflexivity.
    - unfold bind. rewrite E. reflexivity. }
  split; [exact NT|]. split; [exact DL|]. intros a b c d Ha Hb Hc Hd. rewrite EV by assumption. unfold f. rewrite number_bits, energy_val by assumption. reflexivity.
Qed.
Lemma plaquette_err ws diamond (h : heap R) : List.length ws <> 2 -> plaquetteIsingTensor (inr ws) diamond h = (h, Err AssertionError).
Proof. intros N. unfold plaquetteIsingTensor, bind, assert. apply Nat.eqb_neq in N. rewrite N. reflexivity. Qed.
Lemma plaquette_square weight w0 w1 (h : heap R) : two_weights weight w0 w1 -> exists h' t, plaquetteIsingTensor weight true h = (h', Ok (t, Some 2)) /\ new_tensor h h' t None /\ square h' t 2 2 /\
  forall u l d r, u < 2 -> l < 2 -> d < 2 -> r < 2 -> entry4 h' t u l d r = exp (- pair_energy w0 w1 r d l u).
Proof.
  intros W. destruct (plaquette_tensor weight w0 w1 true h W) as (h' & t & E & NT & DL & EV). cbn iota in DL, EV. exists h', t. split; [exact E|]. split; [exact NT|].
  split. { apply (legs_perm h' t [("r", 2); ("d", 2); ("l", 2); ("u", 2)]); [|exact DL]. apply (Permutation_map (fun n => (n, 2)) (Permutation_rev ["r"; "d"; "l"; "u"])). }
  intros u l d r Hu Hl Hd Hr. rewrite <- EV by assumption. unfold entry4. apply (at_same h' t [("r", 2); ("d", 2); ("l", 2); ("u", 2)]); [apply DL|]. intros n [<-|[<-|[<-|[<-|[]]]]]; reflexivity.
Qed.

(** ** Lattices *)
Section Lat.
Variable L : lattice.
Hypothesis TL : torus L.
Local Open Scope R_scope.
Lemma prodL_exp {X} (ls : list X) (f : X -> R) : prodL ls (fun x => exp (f x)) = exp (sumL ls f).
Proof. induction ls as [|x ls IH]; cbn; [now rewrite exp_0|]. rewrite IH. symmetry. apply exp_plus. Qed.
Lemma sum_shift (g k : site L -> site L) (f : site L -> R) : (forall x, In x (sites L) -> k (g x) = x /\ In (g x) (sites L)) -> sumL (sites L) (fun x => f (g x)) = sumL (sites L) f.
Proof.
  intros E. rewrite <- (sumL_map g). apply sumL_perm. apply NoDup_Permutation_bis.
  - apply map_nodup; [apply TL|]. intros x y Hx Hy Eg. rewrite <- (proj1 (E x Hx)), <- (proj1 (E y Hy)). now rewrite Eg.
  - now rewrite map_length.
  - intros y Hy. apply in_map_iff in Hy. destruct Hy as (x & <- & Hx). now apply E.
Qed.
Lemma sum_plus {X} (ls : list X) (f g : X -> R) : sumL ls (fun x => f x + g x) = sumL ls f + sumL ls g. Proof. exact (@sumL_add R SR_R X ls f g). Qed.
Lemma sum_scale {X} (ls : list X) (c : R) (f : X -> R) : sumL ls (fun x => c * f x) = c * sumL ls f. Proof. exact (@sumL_mul_l R SR_R X ls c f). Qed.
Lemma sum_same {X} (ls : list X) (f g : X -> R) : (forall x, In x ls -> f x = g x) -> sumL ls f = sumL ls g. Proof. intros E. exact (@sumL_ext R SR_R X ls f g E). Qed.
Lemma sum_up (f : site L -> R) : sumL (sites L) (fun x => f (up L x)) = sumL (sites L) f.
Proof. apply (sum_shift _ (down L)). intros x Hx. split; [apply TL; exact Hx|]. now apply (to_closed L TL x Hx). Qed.
Lemma sum_left (f : site L -> R) : sumL (sites L) (fun x => f (left L x)) = sumL (sites L) f.
Proof. apply (sum_shift _ (right L)). intros x Hx. split; [apply TL; exact Hx|]. now apply (to_closed L TL x Hx). Qed.
Lemma sum_right (f : site L -> R) : sumL (sites L) (fun x => f (right L x)) = sumL (sites L) f.
Proof. apply (sum_shift _ (left L)). intros x Hx. split; [apply TL; exact Hx|]. now apply (to_closed L TL x Hx). Qed.
Lemma energy_sum J K (h v : site L -> nat) :
  sumL (sites L) (fun x => J * (spin (v x) * spin (h x)) + K * (spin (h x) * spin (v (up L x))) + K * (spin (h (left L x)) * spin (v x)) + J * (spin (v (up L x)) * spin (h (left L x)))) = - ising_energy L J K h v.
Proof.
  unfold ising_energy. rewrite Ropp_involutive.
  transitivity (sumL (sites L) (fun x => spin (h x) * (J * spin (v x) + K * spin (v (up L x)))) + sumL (sites L) (fun x => spin (h x) * (K * spin (v (right L x)) + J * spin (v (up L (right L x)))))).
  2:{ rewrite <- sum_plus. apply sum_same. intros x _. ring. }
  rewrite <- (sum_left (fun x => spin (h x) * (K * spin (v (right L x)) + J * spin (v (up L (right L x)))))). rewrite <- sum_plus. apply sum_same. intros x Hx.
  rewrite (proj2 (to_lr L TL x Hx)). ring.
Qed.
Lemma square_energy_sum (h v : site L -> nat) : sumL (sites L) (fun x => square_energy (v (up L x)) (h (left L x)) (v x) (h x)) = ising_energy L 1 1 h v.
Proof.
  rewrite <- (Ropp_involutive (ising_energy L 1 1 h v)). rewrite <- energy_sum. replace (- _) with (-1 * sumL (sites L) (fun x => 1 * (spin (v x) * spin (h x)) + 1 * (spin (h x) * spin (v (up L x))) + 1 * (spin (h (left L x)) * spin (v x)) + 1 * (spin (v (up L x)) * spin (h (left L x))))) by ring.
  rewrite <- sum_scale. apply sum_same. intros x _. unfold square_energy. ring.
Qed.
Lemma energy_scale J K c h v : ising_energy L (c * J) (c * K) h v = c * ising_energy L J K h v.
Proof.
  unfold ising_energy. rewrite <- Ropp_mult_distr_r. f_equal. rewrite <- sum_scale. apply sum_same. intros x _. ring.
Qed.
Lemma spin_sum (h v : site L -> nat) : sumL (sites L) (fun x => square_spin (v (up L x)) (h (left L x)) (v x) (h x)) = magnetization L h v.
Proof.
  unfold magnetization, square_spin. transitivity (sumL (sites L) (fun x => / 2 * (spin (v (up L x)) + spin (h (left L x)) + spin (v x) + spin (h x)))). { apply sum_same. intros. field. }
  rewrite sum_scale, !sum_plus. rewrite (sum_up (fun x => spin (v x))), (sum_left (fun x => spin (h x))). field.
Qed.
Lemma weight_prod beta b (h v : site L -> nat) : prodL (sites L) (fun x => site_weight beta b None (v (up L x)) (h (left L x)) (v x) (h x)) = exp (- ising_energy L beta beta h v + b * magnetization L h v).
Proof.
  unfold site_weight. cbn [observable]. rewrite (prodL_ext (sites L) _ (fun x => exp (- beta * square_energy (v (up L x)) (h (left L x)) (v x) (h x) + b * square_spin (v (up L x)) (h (left L x)) (v x) (h x)))).
  2:{ intros x _. rewrite Rmult_1_l. symmetry. apply exp_plus. }
  rewrite prodL_exp. f_equal. rewrite sum_plus, !sum_scale, square_energy_sum, spin_sum. f_equal. rewrite <- (Rmult_1_r beta) at 2 3. rewrite energy_scale. ring.
Qed.
Lemma pair_prod w0 w1 (h v : site L -> nat) : prodL (sites L) (fun x => exp (- pair_energy w0 w1 (h x) (v x) (h (left L x)) (v (up L x)))) = exp (- ising_energy L w0 w1 h v + 0 * magnetization L h v).
Proof.
  rewrite prodL_exp. f_equal. rewrite Rmult_0_l, Rplus_0_r, <- energy_sum. apply sum_same. intros x _. unfold pair_energy. ring.
Qed.
Lemma sum_states (f : (site L -> nat) -> (site L -> nat) -> R) J K b q : (forall h v, f h v = exp (- ising_energy L J K h v + b * magnetization L h v) * q h v) ->
  sum_over (sites L) 2 (fun h => sum_over (sites L) 2 (f h) (fun _ => 0%nat)) (fun _ => 0%nat) = ising_sum L J K b q.
Proof. intros E. unfold ising_sum. apply so_ext. intros h. apply so_ext. intros v. apply E. Qed.
Theorem ising_partition T beta b : (forall u l d r, (u < 2 -> l < 2 -> d < 2 -> r < 2 -> T u l d r = site_weight beta b None u l d r)%nat) ->
  partition L 2 2 (fun _ => T) = ising_sum L beta beta b (fun _ _ => 1).
Proof.
  intros E. rewrite (partition_range L 2 2 (fun _ => T) (fun _ => site_weight beta b None) TL) by (intros; now apply E). unfold partition. apply sum_states. intros h v. rewrite weight_prod. symmetry. apply Rmult_1_r.
Qed.
Theorem ising_moment T beta b i : (forall u l d r, (u < 2 -> l < 2 -> d < 2 -> r < 2 -> T u l d r = site_weight beta b None u l d r)%nat) ->
  moment L 2 2 T (observable (Some "M"%string)) i = ising_sum L beta beta b (fun h v => pow (magnetization L h v) i) /\
  moment L 2 2 T (observable (Some "E"%string)) i = ising_sum L beta beta b (fun h v => pow (ising_energy L 1 1 h v) i).
Proof.
  intros E. assert (X : forall o, moment L 2 2 T o i = moment L 2 2 (site_weight beta b None) o i).
  { intros o. unfold moment. apply so_range. intros h Hh. apply so_range. intros v Hv. f_equal. apply prodL_ext. intros x Hx. destruct (to_closed L TL x Hx) as (C1 & C2 & C3 & C4). apply E; auto. }
  rewrite !X. unfold moment. split; apply sum_states; intros h v; rewrite weight_prod; [rewrite <- spin_sum|rewrite <- square_energy_sum]; reflexivity.
Qed.
Theorem diamond_partition T w0 w1 : (forall u l d r, (u < 2 -> l < 2 -> d < 2 -> r < 2 -> T u l d r = exp (- pair_energy w0 w1 r d l u))%nat) ->
  partition L 2 2 (fun _ => T) = ising_sum L w0 w1 0 (fun _ _ => 1).
Proof.
  intros E. rewrite (partition_range L 2 2 (fun _ => T) (fun _ u l d r => exp (- pair_energy w0 w1 r d l u)) TL) by (intros; now apply E). unfold partition. apply sum_states. intros h v. rewrite pair_prod. symmetry. apply Rmult_1_r.
Qed.
End Lat.

Lemma tensor_entries beta obs b (h h' : heap R) t df : squareIsingTensor beta obs b h = (h', Ok (t, df)) ->
  known obs /\ grown h h' /\ square h' t 2 2 /\ forall u l d r, u < 2 -> l < 2 -> d < 2 -> r < 2 -> entry4 h' t u l d r = site_weight beta b obs u l d r.
Proof.
  intros E. assert (D : known obs \/ ~ known obs).
  { destruct obs as [o|]; [|now left]. cbn [known]. destruct (dec o "M") as [->|N1]; [left; now left|]. destruct (dec o "E") as [->|N2]; [left; now right|]. right. tauto. }
  destruct D as [K|K]; [|rewrite square_tensor_err in E by exact K; discriminate]. split; [exact K|].
  destruct (square_tensor beta obs b h K) as (h1 & t1 & E1 & NT & Q & EV). rewrite E1 in E. injection E as <- <- _. split; [exact (new_grown _ _ _ NT)|]. split; assumption.
Qed.
Theorem tensor_partition L : torus L -> forall beta b (h h' : heap R) t df, squareIsingTensor beta None b h = (h', Ok (t, df)) ->
  partition L 2 2 (fun _ => entry4 h' t) = ising_sum L beta beta b (fun _ _ => 1%R).
Proof. intros TL beta b h h' t df E. apply (ising_partition L TL). apply (tensor_entries _ _ _ _ _ _ _ E). Qed.
Theorem tensor_moment L : torus L -> forall beta b (h h1 h2 : heap R) t0 t1 d0 d1 o, (o = "M" \/ o = "E") ->
  squareIsingTensor beta None b h = (h1, Ok (t0, d0)) -> squareIsingTensor beta (Some o) b h1 = (h2, Ok (t1, d1)) ->
  preserved h1 h2 /\ square h2 t0 2 2 /\ square h2 t1 2 2 /\
  (forall j u l d r, j < 2 -> u < 2 -> l < 2 -> d < 2 -> r < 2 -> entry4 h2 (nth j [t0; t1] t0) u l d r = (entry4 h2 t0 u l d r * pow (observable (Some o) u l d r) j)%R) /\
  forall i, moment L 2 2 (entry4 h2 t0) (observable (Some o)) i = ising_sum L beta beta b (fun x y => pow (if dec o "M" then magnetization L x y else ising_energy L 1 1 x y) i).
Proof.
  intros TL beta b h h1 h2 t0 t1 d0 d1 o Ko E0 E1. destruct (tensor_entries _ _ _ _ _ _ _ E0) as (_ & _ & Q0 & V0). destruct (tensor_entries _ _ _ _ _ _ _ E1) as (_ & G & Q1 & V1).
  destruct (grown_dense _ _ _ _ G Q0) as (Q0' & EQ & _). assert (V0' : forall u l d r, u < 2 -> l < 2 -> d < 2 -> r < 2 -> entry4 h2 t0 u l d r = site_weight beta b None u l d r).
  { intros u l d r Hu Hl Hd Hr. unfold entry4. rewrite EQ. now apply V0. }
  split; [apply grown_preserved; exact G|]. split; [exact Q0'|]. split; [exact Q1|]. split.
  - intros j u l d r Hj Hu Hl Hd Hr. destruct j as [|[|j]]; [| |lia]; cbn [nth pow].
    + symmetry. apply Rmult_1_r.
    + rewrite V1, V0' by assumption. unfold site_weight. change (observable None u l d r) with 1%R. change (rmul ?x ?y) with (Rmult x y). change (@r1 R SR_R) with 1%R. ring.
  - intros i. destruct (ising_moment L TL _ beta b i V0') as (X1 & X2). destruct Ko as [->| ->]; [exact X1|exact X2].
Qed.
Theorem plaquette_partition L : torus L -> forall weight w0 w1, two_weights weight w0 w1 -> forall (h h' : heap R) t df, plaquetteIsingTensor weight true h = (h', Ok (t, df)) ->
  square h' t 2 2 /\ partition L 2 2 (fun _ => entry4 h' t) = ising_sum L w0 w1 0 (fun _ _ => 1%R).
Proof.
  intros TL weight w0 w1 W h h' t df E. destruct (plaquette_square weight w0 w1 h W) as (h1 & t1 & E1 & NT & Q & EV). rewrite E1 in E. injection E as <- <- _. split; [exact Q|]. now apply diamond_partition.
Qed.
