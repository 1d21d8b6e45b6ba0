(** Reading the text form back. *)
From Coq Require Import List Arith Bool String Ascii Lia Decimal DecimalString.
From Verif Require Import Base FuncsProofs TextModel TextSpec.
Import ListNotations.
Local Open Scope nat_scope.

Lemma ascii_eqb_spec c d : Ascii.eqb c d = true <-> c = d. Proof. apply Ascii.eqb_eq. Qed.
Lemma decodeChars_app s t : forall st, decodeChars (s ++ t) st = (letr st' := decodeChars s st in decodeChars t st').
Proof. induction s as [|c s IH]; intros st; simpl; auto. destruct (decodeChar st c); simpl; auto. Qed.
Lemma snoc_app s c t : (snoc s c ++ t)%string = (s ++ String c t)%string.
Proof. unfold snoc. induction s; simpl; congruence. Qed.
Lemma app_nil_r_str s : (s ++ "")%string = s. Proof. induction s; simpl; congruence. Qed.
Lemma app_assoc_str (a b c : string) : ((a ++ b) ++ c)%string = (a ++ (b ++ c))%string. Proof. induction a; simpl; congruence. Qed.

Lemma lower_facts c : lower_letter c -> c <> "{"%char /\ c <> "}"%char /\ isdigit c = false /\ islower c = true /\ isupper c = false.
Proof.
  unfold lower_letter, isdigit, islower, isupper. intros H.
  split; [intros ->; vm_compute in H; lia|]. split; [intros ->; vm_compute in H; lia|].
  repeat split; [apply andb_false_iff; right; apply Nat.leb_gt; lia|apply andb_true_iff; rewrite !Nat.leb_le; lia|apply andb_false_iff; right; apply Nat.leb_gt; lia].
Qed.
Lemma eqb_neq c d : c <> d -> Ascii.eqb c d = false. Proof. apply Ascii.eqb_neq. Qed.

(** the two states between legs *)
Inductive between : list (string * option nat) -> dstate -> Prop :=
| bt_clean ls : between ls (mkD None None false false ls)
| bt_pending ls n : between (ls ++ [(n, None)]) (mkD (Some n) None false false ls).

Lemma in_name s : Forall name_char (list_ascii_of_string s) -> forall n k sw ls, decodeChars s (mkD (Some n) k true sw ls) = Ok (mkD (Some (n ++ s)%string) k true sw ls).
Proof.
  induction s as [|c s IH]; intros F n k sw ls; [simpl; now rewrite app_nil_r_str|]. inversion F as [|? ? (H1 & H2 & _) F']; subst.
  cbn [decodeChars decodeChar]. rewrite (eqb_neq _ _ H1), (eqb_neq _ _ H2). cbn [rbind]. rewrite IH by exact F'. now rewrite snoc_app.
Qed.
Lemma read_name n tn : good_name n -> name_text n tn -> forall ls st, between ls st -> decodeChars tn st = Ok (mkD (Some n) None false false ls).
Proof.
  intros G T ls st B. destruct T as [c|n].
  - inversion G as [? ? L _]; subst. destruct (lower_facts c L) as (H1 & H2 & H3 & _).
    destruct B; cbn [decodeChars decodeChar]; rewrite (eqb_neq _ _ H1), (eqb_neq _ _ H2); [reflexivity|]. rewrite H3. reflexivity.
  - inversion G as [c s L F]; subst. destruct (lower_facts c L) as (H1 & H2 & H3 & _).
    change ("{" ++ String c s ++ "}")%string with (String "{" (String c (s ++ "}"))).
    destruct B as [ls|ls p].
    + transitivity (decodeChars (String c (s ++ "}")) (mkD None None true false ls)); [reflexivity|].
      cbn [decodeChars decodeChar]; rewrite (eqb_neq _ _ H1), (eqb_neq _ _ H2). cbn [rbind]. rewrite decodeChars_app, (in_name s F). reflexivity.
    + transitivity (decodeChars (String c (s ++ "}")) (mkD (Some p) None false true ls)); [reflexivity|].
      cbn [decodeChars decodeChar]; rewrite (eqb_neq _ _ H1), (eqb_neq _ _ H2), H3. cbn [negb orb rbind]. rewrite decodeChars_app, (in_name s F). reflexivity.
Qed.

(** decimal digits *)
Lemma digit_facts (c : ascii) : isdigit c = true -> c <> "{"%char /\ c <> "}"%char.
Proof. intros H. split; intros ->; discriminate H. Qed.
Lemma digit_first n ls c : isdigit c = true -> decodeChar (mkD (Some n) None false true ls) c = Ok (mkD (Some n) (Some (digitValue c)) false true ls).
Proof. intros H. destruct (digit_facts c H) as (H1 & H2). unfold decodeChar. now rewrite (eqb_neq _ _ H1), (eqb_neq _ _ H2), H. Qed.
Lemma digit_next n ls c k : isdigit c = true -> decodeChar (mkD (Some n) (Some k) false true ls) c = Ok (mkD (Some n) (Some (k * 10 + digitValue c)) false true ls).
Proof. intros H. destruct (digit_facts c H) as (H1 & H2). unfold decodeChar. now rewrite (eqb_neq _ _ H1), (eqb_neq _ _ H2), H. Qed.
Lemma digit_alone n ls c : isdigit c = true -> decodeChar (mkD (Some n) None false false ls) c = Ok (mkD None None false false (ls ++ [(n, Some (digitValue c))])).
Proof. intros H. destruct (digit_facts c H) as (H1 & H2). unfold decodeChar. now rewrite (eqb_neq _ _ H1), (eqb_neq _ _ H2), H. Qed.
Lemma tail_ten k : Nat.tail_mul 10 k = k * 10. Proof. rewrite Nat.tail_mul_spec. lia. Qed.
Lemma in_size n ls u : forall k, decodeChars (NilEmpty.string_of_uint u) (mkD (Some n) (Some k) false true ls) = Ok (mkD (Some n) (Some (Nat.of_uint_acc u k)) false true ls).
Proof.
  induction u as [|u IH|u IH|u IH|u IH|u IH|u IH|u IH|u IH|u IH|u IH]; intros k; [reflexivity|..]; cbn [NilEmpty.string_of_uint decodeChars];
    (rewrite digit_next by reflexivity); cbn [rbind]; rewrite IH; do 3 f_equal; cbn [Nat.of_uint_acc]; f_equal;
    match goal with |- context [digitValue ?c] => let v := eval vm_compute in (digitValue c) in change (digitValue c) with v end;
    change (S (S (S (S (S (S (S (S (S (S O)))))))))) with 10; rewrite tail_ten; lia.
Qed.
Lemma in_braces n ls u : u <> Decimal.Nil -> decodeChars (NilEmpty.string_of_uint u) (mkD (Some n) None false true ls) = Ok (mkD (Some n) (Some (Nat.of_uint u)) false true ls).
Proof.
  unfold Nat.of_uint. destruct u as [|u|u|u|u|u|u|u|u|u|u]; intros N; [congruence|..]; cbn [NilEmpty.string_of_uint decodeChars];
    (rewrite digit_first by reflexivity); cbn [rbind]; rewrite in_size; reflexivity.
Qed.
Lemma one_digit u : Decimal.nb_digits u = 1 -> exists c, NilEmpty.string_of_uint u = String c EmptyString /\ isdigit c = true /\ digitValue c = Nat.of_uint u.
Proof.
  destruct u as [|u|u|u|u|u|u|u|u|u|u]; simpl; intros E; try discriminate; injection E as E;
    (assert (u = Decimal.Nil) as -> by (destruct u; [reflexivity|discriminate..])); eexists; split; [reflexivity|split; reflexivity|..]; try (split; reflexivity).
Qed.
Lemma read_size k tk : size_text k tk -> forall n ls, exists st, decodeChars tk (mkD (Some n) None false false ls) = Ok st /\ between (ls ++ [(n, k)]) st.
Proof.
  intros T n ls. destruct T as [|u H|u H].
  - eexists. split; [reflexivity|constructor].
  - destruct (one_digit u H) as (c & -> & H1 & H2). cbn [decodeChars]. rewrite digit_alone by exact H1. rewrite H2. eexists. split; [reflexivity|constructor].
  - change ("{" ++ NilEmpty.string_of_uint u ++ "}")%string with (String "{" (NilEmpty.string_of_uint u ++ "}")).
    cbn [decodeChars decodeChar]. change (Ascii.eqb "{" "{") with true. cbn [rbind]. rewrite decodeChars_app, in_braces by exact H. cbn [rbind decodeChars decodeChar].
    change (Ascii.eqb "}" "{") with false. change (Ascii.eqb "}" "}") with true. cbn [rbind]. eexists. split; [reflexivity|constructor].
Qed.
Lemma read_leg l tl : leg_text l tl -> forall ls st, between ls st -> exists st', decodeChars tl st = Ok st' /\ between (ls ++ [l]) st'.
Proof.
  intros T ls st B. destruct T as [n k tn tk G N K]. rewrite decodeChars_app, (read_name n tn G N ls st B). cbn [rbind]. apply read_size; auto.
Qed.
Lemma read_legs L TL : Forall2 leg_text L TL -> forall ls st, between ls st -> exists st', decodeChars (cat TL) st = Ok st' /\ between (ls ++ L) st'.
Proof.
  induction 1 as [|l tl L TL H F IH]; intros ls st B; [exists st; rewrite app_nil_r; auto|].
  change (cat (tl :: TL)) with (tl ++ cat TL)%string. rewrite decodeChars_app. destruct (read_leg l tl H ls st B) as (st1 & -> & B1). cbn [rbind].
  destruct (IH _ _ B1) as (st2 & E & B2). exists st2. rewrite <- app_assoc in B2. auto.
Qed.
Theorem decode_round_trip L TL : Forall2 leg_text L TL -> decodeSubText (cat TL) = Ok L.
Proof.
  intros F. unfold decodeSubText. destruct (read_legs L TL F [] _ (bt_clean [])) as (st & -> & B). cbn [rbind]. simpl in B. inversion B; subst; reflexivity.
Qed.

(** case of the characters *)
Definition no_upper (s : string) : Prop := Forall (fun c => isupper c = false) (list_ascii_of_string s).
Lemma list_ascii_app s t : list_ascii_of_string (s ++ t)%string = list_ascii_of_string s ++ list_ascii_of_string t.
Proof. induction s; simpl; congruence. Qed.
Lemma name_no_upper n : good_name n -> no_upper n.
Proof.
  intros [c s L F]. constructor; [apply (lower_facts c L)|]. eapply Forall_impl; [|exact F]. intros a (_ & _ & H). unfold isupper, upper_letter in *.
  apply not_true_iff_false. intros X. apply andb_true_iff in X. rewrite !Nat.leb_le in X. auto.
Qed.
Lemma uint_no_upper u : no_upper (NilEmpty.string_of_uint u).
Proof. unfold no_upper. induction u; simpl; constructor; auto. Qed.
Lemma no_upper_app s t : no_upper s -> no_upper t -> no_upper (s ++ t)%string.
Proof. unfold no_upper. rewrite list_ascii_app. intros. apply Forall_app. auto. Qed.
Lemma leg_no_upper l tl : leg_text l tl -> no_upper tl.
Proof.
  intros [n k tn tk G N K]. apply name_no_upper in G. apply no_upper_app.
  - destruct N; auto. apply (no_upper_app "{"); [repeat constructor|]. apply no_upper_app; auto. repeat constructor.
  - destruct K as [|u _|u _]; [constructor|apply uint_no_upper|]. apply (no_upper_app "{"); [repeat constructor|]. apply no_upper_app; [apply uint_no_upper|repeat constructor].
Qed.
Lemma leg_lower l tl : leg_text l tl -> existsb islower (list_ascii_of_string tl) = true.
Proof.
  intros [n k tn tk G N K]. rewrite list_ascii_app, existsb_app. apply orb_true_iff. left.
  destruct N as [c|n].
  - inversion G as [? ? L _]; subst. simpl. apply orb_true_iff. left. apply (lower_facts c L).
  - inversion G as [c s L _]; subst. simpl. apply orb_true_iff. left. apply (lower_facts c L).
Qed.
Lemma cat_no_upper L TL : Forall2 leg_text L TL -> no_upper (cat TL).
Proof. induction 1; [constructor|]. change (cat (y :: l')) with (y ++ cat l')%string. apply no_upper_app; eauto using leg_no_upper. Qed.
Theorem tensor_round_trip t tx : tensor_text t tx -> createTensorFromText tx = Ok t.
Proof.
  intros [c ls tls U NE F]. cbn [createTensorFromText]. assert (isupper c = true) as -> by (unfold isupper; apply andb_true_iff; rewrite !Nat.leb_le; exact U).
  assert (islowerStr (cat tls) = true) as ->.
  { unfold islowerStr. apply andb_true_iff. split.
    - destruct F as [|l tl ls tls H F]; [congruence|]. change (cat (tl :: tls)) with (tl ++ cat tls)%string. rewrite list_ascii_app, existsb_app, (leg_lower _ _ H). reflexivity.
    - apply negb_true_iff. apply not_true_iff_false. intros X. apply existsb_exists in X as (x & Hx & Ex). apply cat_no_upper in F. unfold no_upper in F. rewrite Forall_forall in F. specialize (F x Hx). congruence. }
  cbn [andb]. now rewrite (decode_round_trip _ _ F).
Qed.
Lemma cut_no_upper s : no_upper s -> forall acc t, cut acc (s ++ t) = cut (acc ++ s) t.
Proof.
  induction s as [|c s IH]; intros N acc t; [simpl; now rewrite app_nil_r_str|]. inversion N as [|? ? H N']; subst. cbn [String.append cut]. rewrite H, IH by exact N'. now rewrite snoc_app.
Qed.
Lemma pieces_round_trip T TX : Forall2 tensor_text T TX -> T <> [] -> pieces (cat TX) = TX.
Proof.
  intros F NE. destruct F as [|t tx T TX H F]; [congruence|]. clear NE. destruct H as [c ls tls U _ FL]. apply cat_no_upper in FL. clear U. 
  change (cat (String c (cat tls) :: TX)) with (String c (cat tls ++ cat TX)). cbn [pieces]. rewrite cut_no_upper by exact FL. cbn [String.append].
  generalize (String c (cat tls)) as acc. clear FL c ls tls. induction F as [|t tx T TX H F IH]; intros acc; [reflexivity|].
  destruct H as [c ls tls U _ FL]. apply cat_no_upper in FL. change (cat (String c (cat tls) :: TX)) with (String c (cat tls ++ cat TX)). cbn [cut].
  assert (isupper c = true) as -> by (unfold isupper; apply andb_true_iff; rewrite !Nat.leb_le; exact U). rewrite cut_no_upper by exact FL. cbn [String.append]. now rewrite IH.
Qed.
Lemma tensors_round_trip T TX : Forall2 tensor_text T TX -> rmapM createTensorFromText TX = Ok T.
Proof. induction 1 as [|t tx T TX H F IH]; [reflexivity|]. cbn [rmapM]. now rewrite (tensor_round_trip _ _ H), IH. Qed.
