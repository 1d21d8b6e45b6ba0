(** The mirrored lattice cut into four blocks, four edges and a centre. *)
From Coq Require Import List Arith Bool Lia Permutation.
From Verif Require Import Base Sums OpenSpec TorusProofs SumAllProofs OpenProofs.
Import ListNotations.
Local Open Scope nat_scope.

(** the picture of a corner: mirrored left to right, upside down *)
Definition pic (L : nat) (x y : bool) (b : bond) : bond :=
  match b with
  | HB j i => HB (if x then L - j else j) (if y then L - 1 - i else i)
  | VB j i => VB (if x then L - 1 - j else j) (if y then L - i else i)
  end.
Definition spot (L : nat) (x y : bool) (p : nat * nat) : nat * nat := (if x then L - 1 - fst p else fst p, if y then L - 1 - snd p else snd p).

Section Split.
Context {A : Type} {HA : SR A}.
Add Ring SPring : (@SR_theory A HA).
Variables H V : nat.
Variable T : nat -> nat -> nat -> nat -> A.
Notation dim := (bond_dim H V).
Local Open Scope sr_scope.
Definition msite (L : nat) (c : bond -> nat) (p : nat * nat) : A :=
  let '(j, i) := p in
  let (l, r) := if far L j then (HB (S j) i, HB j i) else (HB j i, HB (S j) i) in
  let (d, u) := if far L i then (VB j (S i), VB j i) else (VB j i, VB j (S i)) in
  T (c l) (c r) (c u) (c d).
Lemma pic_picture L m (x y : bool) : (m <= L)%nat -> picture H V m (pic L x y).
Proof.
  intros Hm. split; [|intros [j i|j i]; reflexivity]. intros [j i|j i] [j' i'|j' i']; cbn; intros B1 B2 E; try discriminate; injection E as E1 E2; destruct x, y; f_equal; lia.
Qed.
Lemma msite_spot L (x y : bool) c j i : (if x then 2 * j + 1 < L else 2 * j + 1 <= L)%nat -> (if y then 2 * i + 1 < L else 2 * i + 1 <= L)%nat -> msite L c (spot L x y (j, i)) = siteE T (pic L x y) c (j, i).
Proof.
  intros Hx Hy. unfold msite, spot, siteE, far. cbn [fst snd].
  assert (Fx : (L <? 2 * (if x then L - 1 - j else j) + 1)%nat = x) by (destruct x; [apply Nat.ltb_lt|apply Nat.ltb_ge]; lia).
  assert (Fy : (L <? 2 * (if y then L - 1 - i else i) + 1)%nat = y) by (destruct y; [apply Nat.ltb_lt|apply Nat.ltb_ge]; lia).
  rewrite Fx, Fy. cbn [pic]. destruct x, y; try replace (S (L - 1 - j)) with (L - j)%nat by lia; try replace (S (L - 1 - i)) with (L - i)%nat by lia;
    try replace (L - S j)%nat with (L - 1 - j)%nat by lia; try replace (L - S i)%nat with (L - 1 - i)%nat by lia; reflexivity.
Qed.
Lemma open_as L : open_mirrored L H V T = sum_all dim (open_bonds L) (fun c => prodL (pairs L L) (msite L c)) (fun _ => O).
Proof. reflexivity. Qed.
Lemma in_open L b : In b (open_bonds L) <-> match b with HB j i => (j <= L /\ i < L)%nat | VB j i => (j < L /\ i <= L)%nat end.
Proof.
  unfold open_bonds. rewrite in_app_iff, !in_map_iff. split.
  - intros [(p & <- & Hp)|(p & <- & Hp)]; apply in_pairs in Hp; lia.
  - destruct b as [j i|j i]; intros Hb; [left|right]; exists (j, i); (split; [reflexivity|apply in_pairs; cbn; lia]).
Qed.
Lemma nodup_open L : NoDup (open_bonds L).
Proof.
  apply nodup_join.
  - apply FinFun.Injective_map_NoDup; [intros [] [] E; cbn in E; congruence|apply nodup_pairs].
  - apply FinFun.Injective_map_NoDup; [intros [] [] E; cbn in E; congruence|apply nodup_pairs].
  - intros b Hb Hb'. apply in_map_iff in Hb, Hb'. destruct Hb as (p & <- & _). destruct Hb' as (q & E & _). discriminate.
Qed.
Lemma msite_exf L ps : exf (fun c => prodL ps (msite L c)).
Proof. intros c c' E. apply prodL_ext. intros [j i] _. unfold msite. destruct (far L j), (far L i); now rewrite !E. Qed.
Lemma siteE_exfs {X} e (ps : list X) (q : X -> nat * nat) : exf (fun c => prodL ps (fun p => siteE T e c (q p))).
Proof. intros c c' E. apply prodL_ext. intros p _. destruct (q p) as [j i]. unfold siteE. now rewrite !E. Qed.

(** the parts: their bonds and their sites *)
Definition block (L n : nat) (x y : bool) : list bond * ((bond -> nat) -> A) := (map (pic L x y) (inner n), fun c => prodL (pairs n n) (fun p => siteE T (pic L x y) c p)).
Definition row_part (L n : nat) (x : bool) : list bond * ((bond -> nat) -> A) := (map (fun j => pic L x false (HB j n)) (seq 0 n), fun c => prodL (seq 0 n) (fun j => siteE T (pic L x false) c (j, n))).
Definition col_part (L n : nat) (y : bool) : list bond * ((bond -> nat) -> A) := (map (fun i => pic L false y (VB n i)) (seq 0 n), fun c => prodL (seq 0 n) (fun i => siteE T (pic L false y) c (n, i))).
Definition even_parts n : list (list bond * ((bond -> nat) -> A)) := let L := (2 * n)%nat in [block L n false false; block L n false true; block L n true false; block L n true true].
Definition odd_parts n : list (list bond * ((bond -> nat) -> A)) := let L := (2 * n + 1)%nat in
  [block L n false false; block L n false true; block L n true false; block L n true true; row_part L n false; row_part L n true; col_part L n false; col_part L n true].
Definition even_seams n : list bond := let L := (2 * n)%nat in
  map (fun j => VB j n) (seq 0 n) ++ map (fun j => VB (L - 1 - j) n) (seq 0 n) ++ map (fun i => HB n i) (seq 0 n) ++ map (fun i => HB n (L - 1 - i)) (seq 0 n).
Definition odd_seams n : list bond := let L := (2 * n + 1)%nat in
  map (fun j => VB j (S n)) (seq 0 n) ++ map (fun j => VB j n) (seq 0 n) ++ map (fun j => VB (L - 1 - j) (S n)) (seq 0 n) ++ map (fun j => VB (L - 1 - j) n) (seq 0 n) ++
  map (fun i => HB n (L - 1 - i)) (seq 0 n) ++ map (fun i => HB (S n) (L - 1 - i)) (seq 0 n) ++ map (fun i => HB n i) (seq 0 n) ++ map (fun i => HB (S n) i) (seq 0 n) ++
  [HB n n; HB (S n) n; VB n n; VB n (S n)].

Lemma in_block L n x y b b' : pic L x y b' = b -> In b' (inner n) -> In b (map (pic L x y) (inner n)).
Proof. intros <- Hb. now apply in_map. Qed.
Lemma in_line {X} (e : nat -> X) n b k : e k = b -> (k < n)%nat -> In b (map e (seq 0 n)).
Proof. intros <- Hk. apply in_map. apply in_seq. lia. Qed.
Ltac blk b' := eapply (in_block _ _ _ _ _ b'); [cbn [pic]; f_equal; lia|apply in_inner; lia].
Ltac line k := apply (in_line _ _ _ k); [cbn [pic]; f_equal; lia|lia].

Ltac pick tac := first [solve [tac] | left; pick tac | right; pick tac].
Lemma even_bonds n : Permutation (open_bonds (2 * n)) (even_seams n ++ flat_map fst (even_parts n)).
Proof.
  apply perm_bis; [apply nodup_open| |].
  - unfold open_bonds, even_seams, even_parts, block, inner. cbn [flat_map fst]. rewrite !app_length, !map_length, !app_length, !map_length, !len_pairs, !seq_length. cbn [List.length]. nia.
  - intros b Hb. apply in_open in Hb. unfold even_seams, even_parts, block. cbn [flat_map fst]. rewrite app_nil_r. rewrite !in_app_iff. set (L := (2 * n)%nat) in *. assert (HL : L = (2 * n)%nat) by reflexivity. clearbody L.
    destruct b as [j i|j i]; destruct Hb as (Hj & Hi).
    + destruct (lt_eq_lt_dec j n) as [[Lj|Lj]|Gj]; destruct (lt_dec i n) as [Li|Gi];
        first [pick ltac:(blk (HB j i))|pick ltac:(blk (HB j (L - 1 - i)))|pick ltac:(blk (HB (L - j) i))|pick ltac:(blk (HB (L - j) (L - 1 - i)))
              |pick ltac:(line i)|pick ltac:(line (L - 1 - i)%nat)].
    + destruct (lt_dec j n) as [Lj|Gj]; destruct (lt_eq_lt_dec i n) as [[Li|Li]|Gi];
        first [pick ltac:(blk (VB j i))|pick ltac:(blk (VB j (L - i)))|pick ltac:(blk (VB (L - 1 - j) i))|pick ltac:(blk (VB (L - 1 - j) (L - i)))
              |pick ltac:(line j)|pick ltac:(line (L - 1 - j)%nat)].
Qed.
Lemma odd_bonds n : Permutation (open_bonds (2 * n + 1)) (odd_seams n ++ flat_map fst (odd_parts n)).
Proof.
  apply perm_bis; [apply nodup_open| |].
  - unfold open_bonds, odd_seams, odd_parts, block, row_part, col_part, inner. cbn [flat_map fst]. rewrite !app_length, !map_length, !app_length, !map_length, !len_pairs, !seq_length. cbn [List.length]. nia.
  - intros b Hb. apply in_open in Hb. unfold odd_seams, odd_parts, block, row_part, col_part. cbn [flat_map fst]. rewrite app_nil_r. rewrite !in_app_iff. set (L := (2 * n + 1)%nat) in *. assert (HL : L = (2 * n + 1)%nat) by reflexivity. clearbody L.
    destruct b as [j i|j i]; destruct Hb as (Hj & Hi).
    + destruct (lt_eq_lt_dec i n) as [[Li|Li]|Gi]; (destruct (lt_eq_lt_dec j n) as [[Lj|Lj]|Gj]; [| |destruct (Nat.eq_dec j (S n)) as [Nj|Nj]]);
        first [pick ltac:(blk (HB j i))|pick ltac:(blk (HB j (L - 1 - i)))|pick ltac:(blk (HB (L - j) i))|pick ltac:(blk (HB (L - j) (L - 1 - i)))
              |pick ltac:(line i)|pick ltac:(line (L - 1 - i)%nat)|pick ltac:(line j)|pick ltac:(line (L - j)%nat)|subst; pick ltac:(cbn; auto 10)].
    + destruct (lt_eq_lt_dec j n) as [[Lj|Lj]|Gj]; (destruct (lt_eq_lt_dec i n) as [[Li|Li]|Gi]; [| |destruct (Nat.eq_dec i (S n)) as [Ni|Ni]]);
        first [pick ltac:(blk (VB j i))|pick ltac:(blk (VB j (L - i)))|pick ltac:(blk (VB (L - 1 - j) i))|pick ltac:(blk (VB (L - 1 - j) (L - i)))
              |pick ltac:(line i)|pick ltac:(line (L - i)%nat)|pick ltac:(line j)|pick ltac:(line (L - 1 - j)%nat)|subst; pick ltac:(cbn; auto 10)].
Qed.
Definition spots L n x y : list (nat * nat) := map (spot L x y) (pairs n n).
Lemma in_spots L n x y p q : spot L x y q = p -> (fst q < n /\ snd q < n)%nat -> In p (spots L n x y).
Proof. intros <- Hq. apply in_map. now apply in_pairs. Qed.
Ltac spt q := apply (in_spots _ _ _ _ _ q); [unfold spot; cbn [fst snd]; f_equal; lia|cbn [fst snd]; lia].
Lemma even_sites n : let L := (2 * n)%nat in Permutation (pairs L L) (spots L n false false ++ spots L n false true ++ spots L n true false ++ spots L n true true).
Proof.
  intros L. assert (HL : L = (2 * n)%nat) by reflexivity. clearbody L. apply perm_bis; [apply nodup_pairs| |].
  - unfold spots. rewrite !app_length, !map_length, !len_pairs. nia.
  - intros [j i] Hp. apply in_pairs in Hp. cbn [fst snd] in Hp. rewrite !in_app_iff.
    destruct (lt_dec j n), (lt_dec i n); first [pick ltac:(spt (j, i))|pick ltac:(spt (j, (L - 1 - i)%nat))|pick ltac:(spt ((L - 1 - j)%nat, i))|pick ltac:(spt ((L - 1 - j)%nat, (L - 1 - i)%nat))].
Qed.
Lemma odd_sites n : let L := (2 * n + 1)%nat in Permutation (pairs L L) (spots L n false false ++ spots L n false true ++ spots L n true false ++ spots L n true true ++
  map (fun j => spot L false false (j, n)) (seq 0 n) ++ map (fun j => spot L true false (j, n)) (seq 0 n) ++ map (fun i => spot L false false (n, i)) (seq 0 n) ++ map (fun i => spot L false true (n, i)) (seq 0 n) ++ [(n, n)]).
Proof.
  intros L. assert (HL : L = (2 * n + 1)%nat) by reflexivity. clearbody L. apply perm_bis; [apply nodup_pairs| |].
  - unfold spots. rewrite !app_length, !map_length, !len_pairs, !seq_length. cbn [List.length]. nia.
  - intros [j i] Hp. apply in_pairs in Hp. cbn [fst snd] in Hp. rewrite !in_app_iff.
    destruct (lt_eq_lt_dec j n) as [[Lj|Lj]|Gj], (lt_eq_lt_dec i n) as [[Li|Li]|Gi];
      first [pick ltac:(spt (j, i))|pick ltac:(spt (j, (L - 1 - i)%nat))|pick ltac:(spt ((L - 1 - j)%nat, i))|pick ltac:(spt ((L - 1 - j)%nat, (L - 1 - i)%nat))
            |pick ltac:(apply (in_line _ _ _ i); [unfold spot; cbn [fst snd]; f_equal; lia|lia])|pick ltac:(apply (in_line _ _ _ (L - 1 - i)%nat); [unfold spot; cbn [fst snd]; f_equal; lia|lia])
            |pick ltac:(apply (in_line _ _ _ j); [unfold spot; cbn [fst snd]; f_equal; lia|lia])|pick ltac:(apply (in_line _ _ _ (L - 1 - j)%nat); [unfold spot; cbn [fst snd]; f_equal; lia|lia])
            |subst j i; pick ltac:(left; reflexivity)].
Qed.
(** ** The parts are independent *)
Ltac unseen :=
  let b := fresh "b" in let E := fresh "E" in let Hb := fresh "Hb" in let j' := fresh "j" in let i' := fresh "i" in
  intros b; rewrite in_map_iff in b; destruct b as (b & E & Hb);
  first [apply in_inner in Hb; destruct b as [j' i'|j' i']; cbn [pic] in E; first [discriminate E|injection E; lia]|apply in_seq in Hb; cbn [pic] in E; first [discriminate E|injection E; lia]].
Ltac apart := split; (intros c c' EE; apply prodL_ext;
  first [intros [j i] Hp; apply in_pairs in Hp; cbn [fst snd] in Hp | intros j Hp; apply in_seq in Hp]; unfold siteE; cbn [pic]; rewrite !EE by unseen; reflexivity).
Lemma even_apart n : ForallOrdPairs (fun p q => off (fst q) (snd p) /\ off (fst p) (snd q)) (even_parts n).
Proof.
  unfold even_parts. set (L := (2 * n)%nat). assert (HL : L = (2 * n)%nat) by reflexivity. clearbody L. unfold block.
  repeat (constructor; [repeat (constructor; [cbn [fst snd]; apart|]); constructor|]). constructor.
Qed.
Lemma odd_apart n : ForallOrdPairs (fun p q => off (fst q) (snd p) /\ off (fst p) (snd q)) (odd_parts n).
Proof.
  unfold odd_parts. set (L := (2 * n + 1)%nat). assert (HL : L = (2 * n + 1)%nat) by reflexivity. clearbody L. unfold block, row_part, col_part.
  repeat (constructor; [repeat (constructor; [cbn [fst snd]; apart|]); constructor|]). constructor.
Qed.
(** ** The sums over the seams *)
Lemma parts_even n c : prodL (pairs (2 * n) (2 * n)) (msite (2 * n) c) = prodL (even_parts n) (fun p => snd p c).
Proof.
  rewrite (prodL_perm _ _ _ (even_sites n)). unfold spots. rewrite !prodL_app, !prodL_map. unfold even_parts, block. cbn [prodL snd].
  assert (E : forall x y : bool, prodL (pairs n n) (fun p => msite (2 * n) c (spot (2 * n) x y p)) = prodL (pairs n n) (fun p => siteE T (pic (2 * n) x y) c p)).
  { intros x y. apply prodL_ext. intros [j i] Hp. apply in_pairs in Hp. cbn [fst snd] in Hp. apply msite_spot; [destruct x; lia|destruct y; lia]. }
  rewrite !E. ring.
Qed.
Lemma parts_odd n c : prodL (pairs (2 * n + 1) (2 * n + 1)) (msite (2 * n + 1) c) = siteE T idb c (n, n) * prodL (odd_parts n) (fun p => snd p c).
Proof.
  rewrite (prodL_perm _ _ _ (odd_sites n)). unfold spots. rewrite !prodL_app, !prodL_map. unfold odd_parts, block, row_part, col_part. cbn [prodL snd]. set (L := (2 * n + 1)%nat). assert (HL : L = (2 * n + 1)%nat) by reflexivity. clearbody L.
  assert (E : forall x y : bool, prodL (pairs n n) (fun p => msite L c (spot L x y p)) = prodL (pairs n n) (fun p => siteE T (pic L x y) c p)).
  { intros x y. apply prodL_ext. intros [j i] Hp. apply in_pairs in Hp. cbn [fst snd] in Hp. apply msite_spot; [destruct x; lia|destruct y; lia]. }
  assert (ER : forall x : bool, prodL (seq 0 n) (fun j => msite L c (spot L x false (j, n))) = prodL (seq 0 n) (fun j => siteE T (pic L x false) c (j, n))).
  { intros x. apply prodL_ext. intros j Hp. apply in_seq in Hp. apply msite_spot; [destruct x; lia|lia]. }
  assert (EC : forall y : bool, prodL (seq 0 n) (fun i => msite L c (spot L false y (n, i))) = prodL (seq 0 n) (fun i => siteE T (pic L false y) c (n, i))).
  { intros y. apply prodL_ext. intros i Hp. apply in_seq in Hp. apply msite_spot; [lia|destruct y; lia]. }
  assert (E0 : msite L c (n, n) = siteE T idb c (n, n)) by (change (n, n) with (spot L false false (n, n)) at 1; rewrite msite_spot by lia; reflexivity).
  rewrite !E, !ER, !EC, E0. ring.
Qed.
Notation quad := (quad H V T).
Notation hcol := (hcol V T).
Notation vrow := (vrow H T).
Notation sumH := (sumH H).
Notation sumV := (sumV V).
Lemma block_value L n x y c : (n <= L)%nat -> sum_all dim (fst (block L n x y)) (snd (block L n x y)) c = quad n (fun i => c (pic L x y (HB n i))) (fun j => c (pic L x y (VB j n))).
Proof. intros Hn. apply block_sum. now apply pic_picture. Qed.
Ltac inj_line := intros ? ? ? ? EE; injection EE; lia.
Ltac decs := repeat match goal with |- context [@dec bond ?D ?a ?b] => let EE := fresh "EE" in let NE := fresh "NE" in destruct (@dec bond D a b) as [EE|NE]; [try discriminate EE; try (exfalso; injection EE; lia)|try (exfalso; apply NE; reflexivity)] end.
Ltac vals := intros ? ?; cbv beta; decs; repeat first [solve [apply over_at; [reflexivity|inj_line|assumption]]|rewrite over_out by (intros ? ? EE; first [discriminate EE|injection EE; lia])]; reflexivity.
Theorem open_even n : open_mirrored (2 * n) H V T = sumV n (fun a => sumV n (fun b => sumH n (fun c => sumH n (fun d => quad n c a * quad n d a * quad n c b * quad n d b)))).
Proof.
  rewrite open_as. rewrite (sa_perm dim _ _ _ (even_bonds n) (nodup_open _) (msite_exf _ _)). rewrite sa_app.
  rewrite (sa_ext dim (even_seams n) _ (fun c => quad n (fun i => c (HB n i)) (fun j => c (VB j n)) * quad n (fun i => c (HB n (2 * n - 1 - i)%nat)) (fun j => c (VB j n)) *
    quad n (fun i => c (HB n i)) (fun j => c (VB (2 * n - 1 - j)%nat n)) * quad n (fun i => c (HB n (2 * n - 1 - i)%nat)) (fun j => c (VB (2 * n - 1 - j)%nat n)))).
  2:{ intros c. rewrite (sa_ext dim _ _ _ c (parts_even n)). rewrite sa_parts; [|unfold even_parts, block; repeat constructor; cbn [snd]; apply (siteE_exfs _ (pairs n n) (fun p => p))|apply even_apart].
      unfold even_parts. cbn [prodL]. rewrite !block_value by lia. cbn [pic]. replace (2 * n - n)%nat with n by lia. ring. }
  unfold even_seams. rewrite <- (app_nil_r (map (fun i => HB n (2 * n - 1 - i)) (seq 0 n))).
  match goal with |- sum_all _ _ ?G _ = _ => assert (EX : exf G) by (intros c1 c2 E; rewrite !(quad_agree H V T n (fun i => c1 _) (fun i => c2 _) (fun i => c1 _) (fun i => c2 _)) by (intros ? ?; apply E); reflexivity) end.
  assert (IV : forall x y, (x < n)%nat -> (y < n)%nat -> VB (2 * n - 1 - x) n = VB (2 * n - 1 - y) n -> x = y) by (intros x y Hx Hy E; injection E; lia).
  assert (IH : forall x y, (x < n)%nat -> (y < n)%nat -> HB n (2 * n - 1 - x) = HB n (2 * n - 1 - y) -> x = y) by (intros x y Hx Hy E; injection E; lia).
  rewrite sa_peel by (first [exact EX|intros; congruence]). apply sa_ext. intros a.
  rewrite sa_peel by (first [exact EX|exact IV]). apply sa_ext. intros b.
  rewrite sa_peel by (first [exact EX|intros; congruence]). apply sa_ext. intros c.
  rewrite sa_peel by (first [exact EX|exact IH]). apply sa_ext. intros d. cbn [sum_all].
  repeat apply (f_equal2 rmul); apply quad_agree; vals.
Qed.
Theorem open_odd n : open_mirrored (2 * n + 1) H V T =
  sumV n (fun a1 => sumV n (fun a2 => sumV n (fun b1 => sumV n (fun b2 => sumH n (fun c1 => sumH n (fun c2 => sumH n (fun d1 => sumH n (fun d2 =>
    sumN H (fun x => sumN H (fun x' => sumN V (fun y => sumN V (fun y' =>
      T x x' y' y * (quad n d1 a2 * quad n c1 a1 * quad n d2 b2 * quad n c2 b1 * vrow n a1 a2 x * vrow n b1 b2 x' * hcol n d1 d2 y * hcol n c1 c2 y'))))))))))))).
Proof.
  rewrite open_as. rewrite (sa_perm dim _ _ _ (odd_bonds n) (nodup_open _) (msite_exf _ _)). rewrite sa_app.
  rewrite (sa_ext dim (odd_seams n) _ (fun c => siteE T idb c (n, n) * (
    quad n (fun i => c (HB n i)) (fun j => c (VB j n)) * quad n (fun i => c (HB n (2 * n + 1 - 1 - i)%nat)) (fun j => c (VB j (S n))) *
    quad n (fun i => c (HB (S n) i)) (fun j => c (VB (2 * n + 1 - 1 - j)%nat n)) * quad n (fun i => c (HB (S n) (2 * n + 1 - 1 - i)%nat)) (fun j => c (VB (2 * n + 1 - 1 - j)%nat (S n))) *
    vrow n (fun j => c (VB j (S n))) (fun j => c (VB j n)) (c (HB n n)) * vrow n (fun j => c (VB (2 * n + 1 - 1 - j)%nat (S n))) (fun j => c (VB (2 * n + 1 - 1 - j)%nat n)) (c (HB (S n) n)) *
    hcol n (fun i => c (HB n i)) (fun i => c (HB (S n) i)) (c (VB n n)) * hcol n (fun i => c (HB n (2 * n + 1 - 1 - i)%nat)) (fun i => c (HB (S n) (2 * n + 1 - 1 - i)%nat)) (c (VB n (S n)))))).
  2:{ intros c. rewrite (sa_ext dim _ _ _ c (parts_odd n)). rewrite sa_factor.
      - rewrite sa_parts.
        + unfold odd_parts. cbn [prodL]. rewrite !block_value by lia. unfold row_part, col_part. cbn [fst snd].
          rewrite !row_sum by (apply pic_picture; lia). rewrite !col_sum by (apply pic_picture; lia). cbn [pic]. replace (2 * n + 1 - n)%nat with (S n) by lia. ring.
        + unfold odd_parts, block, row_part, col_part. repeat (constructor; [cbn [snd]; first [apply (siteE_exfs _ (pairs n n) (fun p => p))|apply (siteE_exfs _ (seq 0 n) (fun j => (j, n)))|apply (siteE_exfs _ (seq 0 n) (fun i => (n, i)))]|]). constructor.
        + apply odd_apart.
      - intros c1 c2 E. unfold siteE, idb, odd_parts, block, row_part, col_part in *. cbn [flat_map fst] in E. rewrite app_nil_r in E.
        rewrite !E; [reflexivity| | | |]; (rewrite !in_app_iff; intros Hb; repeat (destruct Hb as [Hb|Hb]; [revert Hb; unseen|]); revert Hb; unseen). }
  unfold odd_seams. set (L := (2 * n + 1)%nat). assert (HL : L = (2 * n + 1)%nat) by reflexivity. clearbody L.
  match goal with |- sum_all _ _ ?G _ = _ => assert (EX : exf G) end.
  { intros c1 c2 E. unfold siteE, idb. rewrite !E. f_equal. repeat apply (f_equal2 rmul); first [apply quad_agree|apply vrow_agree|apply hcol_agree]; intros ? ?; apply E. }
  assert (IV : forall k x y, (x < n)%nat -> (y < n)%nat -> VB (L - 1 - x) k = VB (L - 1 - y) k -> x = y) by (intros k x y Hx Hy E; injection E; lia).
  assert (IH : forall k x y, (x < n)%nat -> (y < n)%nat -> HB k (L - 1 - x) = HB k (L - 1 - y) -> x = y) by (intros k x y Hx Hy E; injection E; lia).
  do 8 (rewrite sa_peel by (first [exact EX|apply IV|apply IH|intros; congruence]); apply sa_ext; intros ?).
  cbn [sum_all bond_dim]. do 4 (apply sumN_ext; intros ? ?).
  unfold siteE, idb. apply (f_equal2 rmul); [decs; reflexivity|].
  repeat apply (f_equal2 rmul);
    lazymatch goal with
    | |- OpenProofs.quad _ _ _ _ _ _ = _ => apply quad_agree; vals
    | |- OpenProofs.vrow _ _ _ _ _ ?x = OpenProofs.vrow _ _ _ _ _ ?y => replace x with y by (decs; reflexivity); apply vrow_agree; vals
    | |- OpenProofs.hcol _ _ _ _ _ ?x = OpenProofs.hcol _ _ _ _ _ ?y => replace x with y by (decs; reflexivity); apply hcol_agree; vals
    end.
Qed.
End Split.
