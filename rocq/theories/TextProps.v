(** C38: the text form of tensor graphs. *)
From Coq Require Import List Arith Bool String Ascii Decimal DecimalString Lia.
From Verif Require Import Base TextModel TextSpec TextProofs TextLinkProofs.
Import ListNotations.
Local Open Scope nat_scope.

Theorem C38_decode : forall L TL, Forall2 leg_text L TL -> decodeSubText (cat TL) = Ok L.
Proof. exact decode_round_trip. Qed.
Print Assumptions C38_decode.

Theorem C38_graph : forall T TX, Forall2 tensor_text T TX -> T <> [] ->
  (~ ill_linked T /\ exists T' links, createTensorListFromText (cat TX) = Ok (T', links) /\ read_as T T' links) \/
  (ill_linked T /\ createTensorListFromText (cat TX) = Err AssertionError).
Proof. exact reading. Qed.
Print Assumptions C38_graph.

(** The sizes are read digit by digit only inside braces: this is not the leg [i] of size 45. *)
Theorem C38_bare_number_refuted : exists T' links,
  createTensorListFromText "Ai45" = Ok (T', links) /\ T' = [("A"%string, [("i"%string, Some 4); ("5"%string, None)])].
Proof. eexists; eexists; split; vm_compute; reflexivity. Qed.
Print Assumptions C38_bare_number_refuted.

(** the text of the test suite (test_TensorGraph.py 128) is of the form above *)
Definition exT : list (string * list (string * option nat)) :=
  [("A", [("i", None); ("j", Some 45); ("l", Some 4)]); ("B", [("i", Some 3); ("mn", Some 12)]);
   ("C", [("j", Some 45); ("k", None)]); ("D", [("k", Some 2); ("l", None); ("mn", None)])]%string.
Definition exTX : list string := ["Aij{45}l{4}"; "Bi{3}{mn}{12}"; "Cj{45}k"; "Dk{2}l{mn}"]%string.
Lemma lower_ok c : (97 <=? nat_of_ascii c) && (nat_of_ascii c <=? 122) = true -> lower_letter c.
Proof. intros H. apply andb_true_iff in H as (H1 & H2). apply Nat.leb_le in H1, H2. split; assumption. Qed.
Lemma upper_ok c : (65 <=? nat_of_ascii c) && (nat_of_ascii c <=? 90) = true -> upper_letter c.
Proof. intros H. apply andb_true_iff in H as (H1 & H2). apply Nat.leb_le in H1, H2. split; assumption. Qed.
Lemma one_ok c : (97 <=? nat_of_ascii c) && (nat_of_ascii c <=? 122) = true -> good_name (String c EmptyString).
Proof. intros H. constructor; [now apply lower_ok|constructor]. Qed.
Lemma mn_ok : good_name "mn".
Proof. constructor; [apply lower_ok; reflexivity|]. repeat constructor; try discriminate. intros (H & H'). vm_compute in H'. lia. Qed.
Lemma plain c : (97 <=? nat_of_ascii c) && (nat_of_ascii c <=? 122) = true -> leg_text (String c EmptyString, None) (String c EmptyString).
Proof. intros H. apply (leg_intro _ _ (String c EmptyString) EmptyString); [now apply one_ok|constructor|constructor]. Qed.
Lemma sized c u : (97 <=? nat_of_ascii c) && (nat_of_ascii c <=? 122) = true -> u <> Decimal.Nil ->
  leg_text (String c EmptyString, Some (Nat.of_uint u)) (String c ("{" ++ NilEmpty.string_of_uint u ++ "}")).
Proof. intros H Hu. apply (leg_intro _ _ (String c EmptyString)); [now apply one_ok|constructor|now constructor]. Qed.
Example C38_example : Forall2 tensor_text exT exTX /\ ~ ill_linked exT /\
  createTensorListFromText (cat exTX) =
    Ok ([("A", [("i", Some 3); ("j", Some 45); ("l", Some 4)]); ("B", [("i", Some 3); ("mn", Some 12)]);
         ("C", [("j", Some 45); ("k", Some 2)]); ("D", [("k", Some 2); ("l", Some 4); ("mn", Some 12)])]%string,
        [(0, 3); (1, 5); (2, 8); (4, 9); (6, 7)]).
Proof.
  assert (F : Forall2 tensor_text exT exTX).
  { assert (D : forall ds, ds <> Decimal.Nil -> ds <> Decimal.Nil) by auto.
    constructor; [|constructor; [|constructor; [|constructor; [|constructor]]]].
    - change "Aij{45}l{4}"%string with (String "A" (cat ["i"; "j{45}"; "l{4}"]%string)). constructor; [apply upper_ok; reflexivity|discriminate|].
      constructor; [apply plain; reflexivity|]. constructor; [apply (sized "j" (Decimal.D4 (Decimal.D5 Decimal.Nil))); [reflexivity|discriminate]|].
      constructor; [apply (sized "l" (Decimal.D4 Decimal.Nil)); [reflexivity|discriminate]|constructor].
    - change "Bi{3}{mn}{12}"%string with (String "B" (cat ["i{3}"; "{mn}{12}"]%string)). constructor; [apply upper_ok; reflexivity|discriminate|].
      constructor; [apply (sized "i" (Decimal.D3 Decimal.Nil)); [reflexivity|discriminate]|].
      constructor; [|constructor]. change "{mn}{12}"%string with (("{" ++ "mn" ++ "}") ++ ("{" ++ NilEmpty.string_of_uint (Decimal.D1 (Decimal.D2 Decimal.Nil)) ++ "}"))%string.
      constructor; [exact mn_ok|constructor|]. change (Some 12) with (Some (Nat.of_uint (Decimal.D1 (Decimal.D2 Decimal.Nil)))). constructor. discriminate.
    - change "Cj{45}k"%string with (String "C" (cat ["j{45}"; "k"]%string)). constructor; [apply upper_ok; reflexivity|discriminate|].
      constructor; [apply (sized "j" (Decimal.D4 (Decimal.D5 Decimal.Nil))); [reflexivity|discriminate]|]. constructor; [apply plain; reflexivity|constructor].
    - change "Dk{2}l{mn}"%string with (String "D" (cat ["k{2}"; "l"; "{mn}"]%string)). constructor; [apply upper_ok; reflexivity|discriminate|].
      constructor; [apply (sized "k" (Decimal.D2 Decimal.Nil)); [reflexivity|discriminate]|]. constructor; [apply plain; reflexivity|]. constructor; [|constructor].
      change "{mn}"%string with (("{" ++ "mn" ++ "}") ++ "")%string. constructor; [exact mn_ok|constructor|constructor]. }
  split; [exact F|]. assert (createTensorListFromText (cat exTX) =
    Ok ([("A", [("i", Some 3); ("j", Some 45); ("l", Some 4)]); ("B", [("i", Some 3); ("mn", Some 12)]);
         ("C", [("j", Some 45); ("k", Some 2)]); ("D", [("k", Some 2); ("l", Some 4); ("mn", Some 12)])]%string,
        [(0, 3); (1, 5); (2, 8); (4, 9); (6, 7)])) as R by (vm_compute; reflexivity).
  split; [|exact R]. destruct (reading exT exTX F ltac:(discriminate)) as [(H & _)|(_ & H)]; [exact H|]. rewrite R in H. discriminate.
Qed.
(** a name used three times, and two different sizes *)
Example C38_rejected : createTensorListFromText "AijBiCi" = Err AssertionError /\ createTensorListFromText "Ai2Bi3" = Err AssertionError /\
  createTensorListFromText "Ai}" = Err AssertionError /\ createTensorListFromText "A" = Err AssertionError /\ createTensorListFromText "" = Err AssertionError.
Proof. repeat split; vm_compute; reflexivity. Qed.
