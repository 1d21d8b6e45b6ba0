(** Proofs about StringSet. *)
From Coq Require Import List Arith Bool String Ascii ZArith Lia.
From Verif Require Import Base FuncsProofs StringSetModel StringSetSpec.
Import ListNotations.
Local Open Scope nat_scope.

Section P.
Variable rnd : nat -> nat.
Variable fuel : nat.

Lemma randomString_length n : forall pos, String.length (randomString rnd n pos) = n.
Proof. induction n; intros; simpl; auto. Qed.
Lemma letters_ok : forallb (fun c => (65 <=? nat_of_ascii c) && (nat_of_ascii c <=? 90) || (97 <=? nat_of_ascii c) && (nat_of_ascii c <=? 122)) asciiLetters = true.
Proof. vm_compute. reflexivity. Qed.
Lemma choice_letter k : letter (choice rnd k).
Proof.
  pose proof letters_ok as H. rewrite forallb_forall in H. specialize (H (choice rnd k)). unfold letter.
  assert (In (choice rnd k) asciiLetters) as I. { apply nth_In. apply Nat.mod_upper_bound. discriminate. }
  specialize (H I). apply orb_true_iff in H. rewrite !andb_true_iff, !Nat.leb_le in H. lia.
Qed.
Lemma randomString_letters n : forall pos, Forall letter (list_ascii_of_string (randomString rnd n pos)).
Proof. induction n; intros; simpl; constructor; auto using choice_letter. Qed.
Lemma randomString_seq n : forall pos a, randomString rnd n (pos + a) = string_of_list_ascii (map (fun i => choice rnd (pos + i)) (seq a n)).
Proof. induction n; intros; simpl; auto. rewrite <- IHn. now rewrite Nat.add_succ_r. Qed.
Lemma randomString_word n pos k : randomString rnd n (pos + k * n) = word rnd pos n k.
Proof. unfold word. rewrite <- (Nat.add_0_r (pos + k * n)) at 1. apply randomString_seq. Qed.

(** the first unused word *)
Lemma draw_shift set n fu : forall pos, 
  match drawUnused rnd fu set n pos with
  | Ok (s, p) => exists k, k < fu /\ s = word rnd pos n k /\ p = pos + S k * n /\ ~ In s set /\ forall j, j < k -> In (word rnd pos n j) set
  | Err e => e = OutOfFuel /\ forall j, j < fu -> In (word rnd pos n j) set
  end.
Proof.
  induction fu as [|fu IH]; intros pos; cbn [drawUnused]; [split; [auto|lia]|].
  assert (W0 : randomString rnd n pos = word rnd pos n 0) by (rewrite <- randomString_word; f_equal; lia).
  assert (WS : forall j, word rnd (pos + n) n j = word rnd pos n (S j)) by (intros; rewrite <- !randomString_word; f_equal; lia).
  destruct (inb (randomString rnd n pos) set) eqn:E.
  - apply inb_spec in E. specialize (IH (pos + n)). destruct (drawUnused _ fu set n (pos + n)) as [[s p]|e].
    + destruct IH as (k & H1 & H2 & H3 & H4 & H5). exists (S k). split; [lia|]. split; [now rewrite <- WS|]. split; [rewrite H3; lia|]. split; [auto|].
      intros [|j] Hj; [now rewrite <- W0|]. rewrite <- WS. apply H5. lia.
    + destruct IH as (H1 & H2). split; auto. intros [|j] Hj; [now rewrite <- W0|]. rewrite <- WS. apply H2. lia.
  - exists 0. split; [lia|]. split; [auto|]. split; [lia|]. split; [|lia]. intros X. apply inb_spec in X. congruence.
Qed.

Lemma in_use_snoc tr e s : in_use (tr ++ [e]) s <-> puts e s \/ (in_use tr s /\ ~ takes e s).
Proof.
  split.
  - intros (u & e' & v & E & P & N). destruct (exists_last (l := e' :: v)) as (v' & x & Ev); [discriminate|]. rewrite Ev, app_assoc in E. apply app_inj_tail in E as (E & <-).
    destruct v' as [|y v'']; simpl in Ev.
    + injection Ev as -> ->. auto.
    + injection Ev as <- ->. right. split; [|apply N, in_app_iff; simpl; auto]. exists u, e', v''. split; auto. split; auto. intros z Hz. apply N, in_app_iff. auto.
  - intros [P|((u & e' & v & -> & P & N) & NT)].
    + exists tr, e, []. simpl. auto.
    + exists u, e', (v ++ [e]). split; [now rewrite <- app_assoc|]. split; auto. intros z Hz. apply in_app_iff in Hz as [Hz|[<-|[]]]; auto.
Qed.

(** the set is the set of names in use, the length follows add and remove *)
Record sound (n0 : Z) (tr : list event) (x : sset) : Prop := {
  so_set : forall s, In s (ss_set x) <-> in_use tr s;
  so_n : ss_n x = later_length n0 tr }.
Lemma adds_snoc tr e : List.length (adds (tr ++ [e])) = List.length (adds tr) + match e with (SAdd _, Ok _) => 1 | _ => 0 end.
Proof. unfold adds. rewrite filter_app, app_length. destruct e as [[i|s|s] [r|e]]; reflexivity. Qed.
Lemma removes_snoc tr e : List.length (removes (tr ++ [e])) = List.length (removes tr) + match e with (SRemove _, Ok _) => 1 | _ => 0 end.
Proof. unfold removes. rewrite filter_app, app_length. destruct e as [[i|s|s] [r|e]]; reflexivity. Qed.
Lemma len_snoc n0 tr e : later_length n0 (tr ++ [e]) = (later_length n0 tr + match e with (SAdd _, Ok _) => 1 | (SRemove _, Ok _) => -1 | _ => 0 end)%Z.
Proof. unfold later_length. rewrite adds_snoc, removes_snoc. destruct e as [[i|s|s] [r|e]]; lia.
Qed.
Lemma quiet tr x n0 o e : (forall s, ~ puts (o, Err e) s) /\ (forall s, ~ takes (o, Err e) s) -> sound n0 tr x -> sound n0 (tr ++ [(o, Err e)]) x.
Proof.
  intros (H1 & H2) [S1 S2]. constructor.
  - intros s. rewrite in_use_snoc, S1. specialize (H1 s). specialize (H2 s). tauto.
  - rewrite len_snoc, S2. destruct o; lia.
Qed.
Lemma err_quiet o e : (forall s, ~ puts (o, Err e) s) /\ (forall s, ~ takes (o, Err e) s).
Proof. split; intros s; [intros [(i & X)|X]; discriminate|intros X; discriminate]. Qed.

Lemma new_snoc tr s s' i : in_use (tr ++ [(SNew i, Ok (Some s))]) s' <-> s = s' \/ in_use tr s'.
Proof.
  rewrite in_use_snoc. split.
  - intros [[(j & X)|X]|(X & _)]; [injection X; auto|discriminate|auto].
  - intros [<-|X]; [left; left; eauto|right; split; auto; discriminate].
Qed.
Lemma add_snoc tr s s' : in_use (tr ++ [(SAdd s, Ok None)]) s' <-> s = s' \/ in_use tr s'.
Proof.
  rewrite in_use_snoc. split.
  - intros [[(j & X)|X]|(X & _)]; [discriminate|injection X; auto|auto].
  - intros [<-|X]; [left; right; auto|right; split; auto; discriminate].
Qed.
Lemma rem_snoc tr s s' : in_use (tr ++ [(SRemove s, Ok None)]) s' <-> s <> s' /\ in_use tr s'.
Proof.
  rewrite in_use_snoc. unfold takes. split.
  - intros [[(j & X)|X]|(X & Y)]; [discriminate..|]. split; auto. congruence.
  - intros (H & X). right. split; auto. congruence.
Qed.
Lemma call_sound n0 tr x o x' r : sound n0 tr x -> call rnd fuel o x = (x', r) -> sound n0 (tr ++ [(o, r)]) x' /\ fresh_call rnd fuel n0 tr (ss_pos x) o r.
Proof.
  intros HS E. pose proof HS as [S1 S2]. destruct o as [[s|]|s|s]; cbn [call] in E.
  - unfold newString in E. destruct (inb s (ss_set x)) eqn:I.
    + apply inb_spec in I. injection E as <- <-. cbn [rbind]. split; [apply quiet; auto using err_quiet|]. right. split; auto. now apply S1.
    + assert (~ In s (ss_set x)) as N by (intros X; apply inb_spec in X; congruence). injection E as <- <-. cbn [rbind]. split; [constructor|left; split; auto; now rewrite <- S1].
      * intros s'. cbn [ss_set]. rewrite new_snoc. simpl. rewrite S1. tauto.
      * rewrite len_snoc. cbn [ss_n]. lia.
  - unfold newString in E. pose proof (draw_shift (ss_set x) (Z.to_nat (ss_n x)) fuel (ss_pos x)) as D.
    destruct (drawUnused _ _ _ _ _) as [[s p]|e].
    + destruct D as (k & H1 & H2 & H3 & H4 & H5). injection E as <- <-. cbn [rbind fresh_call]. rewrite <- S2. split; [constructor|].
      * intros s'. cbn [ss_set]. rewrite new_snoc. simpl. rewrite S1. tauto.
      * rewrite len_snoc. cbn [ss_n]. lia.
      * split; [now rewrite <- S1|]. rewrite H2, <- randomString_word. split; [rewrite randomString_length; lia|]. split; [apply randomString_letters|].
        exists k. split; [apply randomString_word|]. intros j Hj. apply S1. auto.
    + destruct D as (-> & D). injection E as <- <-. cbn [rbind fresh_call]. split; [apply quiet; auto using err_quiet|]. split; auto. rewrite <- S2. intros j Hj. apply S1. auto.
  - unfold addStr in E. destruct (inb s (ss_set x)) eqn:I.
    + apply inb_spec in I. injection E as <- <-. cbn [rbind]. split; [apply quiet; auto using err_quiet|]. right. split; auto. now apply S1.
    + assert (~ In s (ss_set x)) as N by (intros X; apply inb_spec in X; congruence). injection E as <- <-. cbn [rbind]. split; [constructor|left; split; auto; now rewrite <- S1].
      * intros s'. cbn [ss_set]. rewrite add_snoc. simpl. rewrite S1. tauto.
      * rewrite len_snoc. cbn [ss_n]. lia.
  - unfold removeStr in E. destruct (inb s (ss_set x)) eqn:I.
    + apply inb_spec in I. injection E as <- <-. cbn [rbind]. split; [constructor|left; split; auto; now rewrite <- S1].
      * intros s'. cbn [ss_set]. rewrite rem_snoc, filter_In, S1. destruct (dec s' s) as [->|N]; simpl; [split; [intros (_ & X); discriminate|tauto]|intuition].
      * rewrite len_snoc. cbn [ss_n]. lia.
    + assert (~ In s (ss_set x)) as N by (intros X; apply inb_spec in X; congruence). injection E as <- <-. cbn [rbind]. split; [apply quiet; auto using err_quiet|]. right. split; auto. now rewrite <- S1.
Qed.

Lemma calls_sound os n0 : forall tr x x' tr', sound n0 tr x -> calls rnd fuel os x = (x', tr') -> sound n0 (tr ++ tr') x' /\
  forall u o r v, tr' = u ++ (o, r) :: v -> exists pos, fresh_call rnd fuel n0 (tr ++ u) pos o r.
Proof.
  induction os as [|o os IH]; intros tr x x' tr' HS E; cbn [calls] in E.
  - injection E as <- <-. rewrite app_nil_r. split; auto. intros u o r v X. destruct u; discriminate.
  - destruct (call rnd fuel o x) as (x1 & r) eqn:E1. destruct (calls rnd fuel os x1) as (x2 & tr2) eqn:E2. injection E as <- <-.
    destruct (call_sound n0 tr x o x1 r HS E1) as (S1 & F1). destruct (IH _ _ _ _ S1 E2) as (S2 & F2).
    rewrite <- app_assoc in S2. split; [exact S2|]. intros [|e u] o' r' v X; simpl in X.
    + injection X as <- <- _. rewrite app_nil_r. eauto.
    + injection X as X1 X2. subst e tr2. destruct (F2 u o' r' v eq_refl) as (p & F). exists p. rewrite <- app_assoc in F. exact F.
Qed.
Lemma sound_new n pos : sound n [] (newSet n pos).
Proof. constructor; [intros s; simpl; split; [tauto|intros (u & e & v & E & _); destruct u; discriminate]|unfold later_length; simpl; lia]. Qed.
End P.

Theorem history_calls rnd fuel n0 pos os x' tr : calls rnd fuel os (newSet n0 pos) = (x', tr) ->
  (forall s, containsStr s x' = true <-> in_use tr s) /\ ss_n x' = later_length n0 tr /\
  forall u o r v, tr = u ++ (o, r) :: v -> exists p, fresh_call rnd fuel n0 u p o r.
Proof.
  intros E. destruct (calls_sound rnd fuel os n0 [] _ _ _ (sound_new rnd fuel n0 pos) E) as ([S1 S2] & F). split; [|auto].
  intros s. unfold containsStr. rewrite inb_spec. apply S1.
Qed.
(** names handed out: twice only if removed in between *)
Theorem never_twice rnd fuel n0 pos os x' tr : calls rnd fuel os (newSet n0 pos) = (x', tr) ->
  forall u i s v j w, tr = u ++ (SNew i, Ok (Some s)) :: v ++ (SNew j, Ok (Some s)) :: w -> In (SRemove s, Ok None) v.
Proof.
  intros E u i s v j w Et. destruct (history_calls _ _ _ _ _ _ _ E) as (_ & _ & F).
  specialize (F (u ++ (SNew i, Ok (Some s)) :: v) (SNew j) (Ok (Some s)) w). destruct F as (p & F); [rewrite Et; now rewrite <- app_assoc|].
  assert (~ in_use (u ++ (SNew i, Ok (Some s)) :: v) s) as N.
  { destruct j as [s'|]; cbn [fresh_call] in F; [destruct F as [(N & X)|(_ & X)]; [injection X as ->; exact N|discriminate]|apply F]. }
  assert (D : {In (SRemove s, Ok None) v} + {~ In (SRemove s, Ok None : res (option string)) v}).
  { apply in_dec. intros [a b] [a' b']. decide equality; [decide equality; [decide equality; apply string_dec|decide equality]|decide equality; try apply string_dec; decide equality; apply string_dec]. }
  destruct D as [D|D]; auto. exfalso. apply N. exists u, (SNew i, Ok (Some s)), v. split; auto. split; [left; eauto|]. intros e He ->. auto.
Qed.
(** newString() returns exactly when some draw is unused *)
Theorem returns_iff rnd x : (exists fuel s, snd (newString rnd fuel None x) = Ok s) <-> exists k, ~ In (word rnd (ss_pos x) (Z.to_nat (ss_n x)) k) (ss_set x).
Proof.
  split.
  - intros (fu & s & E). unfold newString in E. pose proof (draw_shift rnd (ss_set x) (Z.to_nat (ss_n x)) fu (ss_pos x)) as D.
    destruct (drawUnused _ _ _ _ _) as [[s' p]|e]; [|discriminate]. destruct D as (k & _ & H2 & _ & H4 & _). subst. eauto.
  - intros (k & N). exists (S k). unfold newString. pose proof (draw_shift rnd (ss_set x) (Z.to_nat (ss_n x)) (S k) (ss_pos x)) as D.
    destruct (drawUnused _ _ _ _ _) as [[s' p]|e]; [eexists; reflexivity|]. destruct D as (_ & D). exfalso. apply N. apply D. lia.
Qed.
(** a set of length 0 (or less) hands out one name only: the next call never returns, whatever is drawn *)
Theorem stuck_empty rnd fuel x : (ss_n x <= 0)%Z -> In EmptyString (ss_set x) -> newString rnd fuel None x = (x, Err OutOfFuel).
Proof.
  intros Hn Hs. unfold newString. pose proof (draw_shift rnd (ss_set x) (Z.to_nat (ss_n x)) fuel (ss_pos x)) as D.
  destruct (drawUnused _ _ _ _ _) as [[s' p]|e]; [|destruct D as (-> & _); reflexivity]. exfalso. destruct D as (k & _ & H2 & _ & H4 & _).
  apply H4. rewrite H2. replace (Z.to_nat (ss_n x)) with 0 by lia. exact Hs.
Qed.
