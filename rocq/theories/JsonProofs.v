(** A text has one reading. *)
From Coq Require Import List String Ascii NArith Bool Lia.
Import ListNotations.
From Verif Require Import JsonSpec.
Local Open Scope string_scope.

Lemma sapp_assoc a b c : (a ++ b) ++ c = a ++ (b ++ c).
Proof. induction a as [|x a IH]; cbn; congruence. Qed.
Lemma sapp_nil a : a ++ "" = a.
Proof. induction a as [|x a IH]; cbn; congruence. Qed.
Lemma sapp_cancel a b c : a ++ b = a ++ c -> b = c.
Proof. induction a as [|x a IH]; cbn; intros H; [auto|]. injection H; auto. Qed.

Scheme text_ind2 := Induction for text Sort Prop
with elements_ind2 := Induction for elements Sort Prop
with members_ind2 := Induction for members Sort Prop.
Combined Scheme json_ind from text_ind2, elements_ind2, members_ind2.

(** Runs of characters of one kind. *)
Definition starts (p : ascii -> bool) (s : string) : Prop := match s with "" => False | String c _ => p c = true end.
Lemma run p a : forall b r r', all p a = true -> all p b = true -> ~ starts p r -> ~ starts p r' -> a ++ r = b ++ r' -> a = b /\ r = r'.
Proof.
  induction a as [|x a IH]; intros b r r' Ha Hb Hr Hr' E.
  - destruct b as [|y b]; [auto|]. cbn in E, Hb. apply andb_true_iff in Hb. subst r. exfalso. apply Hr. cbn. tauto.
  - cbn in Ha. apply andb_true_iff in Ha. destruct b as [|y b].
    + cbn in E. subst r'. exfalso. apply Hr'. cbn. tauto.
    + cbn in E, Hb. apply andb_true_iff in Hb. injection E as <- E. destruct (IH b r r') as [-> ->]; tauto.
Qed.

Definition numchar (c : ascii) : bool :=
  (digit c || (code c =? 43) || (code c =? 45) || (code c =? 46) || (code c =? 69) || (code c =? 101))%N%bool.
Lemma all_app p a b : all p (a ++ b) = (all p a && all p b)%bool.
Proof. induction a as [|x a IH]; cbn; auto. rewrite IH, andb_assoc. auto. Qed.
Lemma all_weaken (p q : ascii -> bool) s : (forall c, p c = true -> q c = true) -> all p s = true -> all q s = true.
Proof. intros H. induction s as [|x s IH]; cbn; auto. rewrite !andb_true_iff. intuition. Qed.
Lemma digit_num c : digit c = true -> numchar c = true.
Proof. intros H. unfold numchar. rewrite H. auto. Qed.
Lemma number_chars s : number s -> all numchar s = true /\ exists c r, s = String c r /\ (digit c = true \/ c = "-"%char /\ exists d r', r = String d r' /\ digit d = true).
Proof.
  intros (m & i & f & e & -> & Hm & Hi & Hf & He).
  assert (Ai : all numchar i = true).
  { destruct Hi as [|c s H1 _ H2]; [reflexivity|]. cbn. rewrite digit_num by auto. cbn. apply (all_weaken digit); auto using digit_num. }
  assert (Af : all numchar f = true).
  { destruct Hf as [|c s H1 H2]; [reflexivity|]. cbn. rewrite digit_num by auto. cbn. apply (all_weaken digit); auto using digit_num. }
  assert (Ae : all numchar e = true).
  { destruct He as [|e g c s H0 Hg H1 H2]; [reflexivity|]. cbn [all]. rewrite all_app. cbn [all]. rewrite (digit_num c) by auto.
    rewrite (all_weaken digit numchar s) by auto using digit_num. destruct H0 as [-> | ->], Hg as [-> | [-> | ->]]; reflexivity. }
  split.
  - rewrite !all_app, Ai, Af, Ae. destruct Hm as [-> | ->]; reflexivity.
  - assert (Hd : exists c r, i = String c r /\ digit c = true) by (destruct Hi as [|c s H1 _ H2]; eauto).
    destruct Hd as (c & r & -> & Hc). destruct Hm as [-> | ->]; cbn; eauto 10.
Qed.

(** What may follow a value, and what does not continue it. *)
Definition stop (r : string) : Prop :=
  match r with "" => True | String c _ => white c = true \/ c = ","%char \/ c = "]"%char \/ c = "}"%char end.
Lemma stop_num r : stop r -> ~ starts numchar r.
Proof.
  destruct r as [|c r]; cbn; [tauto|]. intros H E. destruct H as [H|[->|[->| ->]]]; try discriminate.
  unfold white in H. unfold numchar, digit in E.
  repeat rewrite orb_true_iff in *. repeat rewrite andb_true_iff in *. repeat rewrite N.eqb_eq in *. repeat rewrite N.leb_le in *. lia.
Qed.
Lemma ws_stop w r : ws w -> stop r -> stop (w ++ r).
Proof. destruct w as [|c w]; cbn; auto. intros H _. unfold ws in H. cbn in H. apply andb_true_iff in H. tauto. Qed.
Lemma ws_run w w' r r' : ws w -> ws w' -> ~ starts white r -> ~ starts white r' -> w ++ r = w' ++ r' -> w = w' /\ r = r'.
Proof. apply run. Qed.

Lemma plain_quote c : plain c = true -> c <> quote.
Proof. intros H ->. discriminate. Qed.
Lemma plain_back c : plain c = true -> c <> backslash.
Proof. intros H ->. discriminate. Qed.
Lemma chars_run s : chars s -> forall s' r r', chars s' -> s ++ String quote r = s' ++ String quote r' -> s = s' /\ r = r'.
Proof.
  induction 1 as [|c s Hc Hs IH|c s Hc Hs IH|a b c d s Ha Hb Hc Hd Hs IH]; intros s' r r' Hs' E.
  - destruct Hs' as [|c s' Hc Hs'| |]; cbn in E.
    + injection E; auto.
    + injection E as <- E. exfalso. apply (plain_quote _ Hc eq_refl).
    + discriminate.
    + discriminate.
  - destruct Hs' as [|c' s' Hc' Hs'|c' s' Hc' Hs'|a' b' c' d' s' Ha' Hb' Hc' Hd' Hs']; cbn in E.
    + injection E as -> E. exfalso. apply (plain_quote _ Hc eq_refl).
    + injection E as -> E. destruct (IH _ _ _ Hs' E) as [-> ->]. auto.
    + injection E as -> E. exfalso. apply (plain_back _ Hc eq_refl).
    + injection E as -> E. exfalso. apply (plain_back _ Hc eq_refl).
  - destruct Hs' as [|c' s' Hc' Hs'|c' s' Hc' Hs'|a' b' c' d' s' Ha' Hb' Hc' Hd' Hs']; cbn in E.
    + discriminate.
    + injection E as <- E. exfalso. apply (plain_back _ Hc' eq_refl).
    + injection E as -> E. destruct (IH _ _ _ Hs' E) as [-> ->]. auto.
    + injection E as -> E. exfalso. cbn in Hc. repeat (destruct Hc as [Hc|Hc]; [discriminate|]). auto.
  - destruct Hs' as [|c' s' Hc' Hs'|c' s' Hc' Hs'|a' b' c' d' s' Ha' Hb' Hc' Hd' Hs']; cbn in E.
    + discriminate.
    + injection E as <- E. exfalso. apply (plain_back _ Hc' eq_refl).
    + injection E as <- E. exfalso. cbn in Hc'. repeat (destruct Hc' as [Hc'|Hc']; [discriminate|]). auto.
    + injection E as -> -> -> -> E. destruct (IH _ _ _ Hs' E) as [-> ->]. auto.
Qed.
Lemma quoted_app s r : quoted s ++ r = String quote (s ++ String quote r).
Proof. unfold quoted. cbn. rewrite sapp_assoc. reflexivity. Qed.
Lemma quoted_run s s' r r' : chars s -> chars s' -> quoted s ++ r = quoted s' ++ r' -> s = s' /\ r = r'.
Proof. intros H H' E. rewrite !quoted_app in E. injection E as E. apply (chars_run s H s' r r' H' E). Qed.

(** The first character of a value. *)
Definition first (j : json) (c : ascii) : Prop :=
  match j with
  | JNum _ => digit c = true \/ c = "-"%char
  | JStr _ => c = quote
  | JTrue => c = "t"%char
  | JFalse => c = "f"%char
  | JNull => c = "n"%char
  | JArr _ => c = "["%char
  | JObj _ => c = "{"%char
  end.
Lemma text_first j s : text j s -> exists c r, s = String c r /\ first j c.
Proof.
  destruct 1; cbn; try (do 2 eexists; split; [reflexivity|reflexivity]).
  destruct (number_chars _ H) as (_ & c & r & -> & Hc). exists c, r. split; auto. tauto.
Qed.
Ltac kind := repeat match goal with
  | H : digit _ = true \/ _ |- _ => destruct H as [H|H]
  end; subst; try discriminate.
Lemma first_kind j j' c : first j c -> first j' c ->
  match j, j' with
  | JNum _, JNum _ | JStr _, JStr _ | JTrue, JTrue | JFalse, JFalse | JNull, JNull | JArr _, JArr _ | JObj _, JObj _ => True
  | _, _ => False
  end.
Proof. destruct j, j'; cbn; auto; intros; kind. Qed.
Lemma first_not j c : first j c -> white c = false /\ c <> "]"%char /\ c <> "}"%char.
Proof.
  destruct j; cbn; intros H; kind; try (repeat split; discriminate).
  unfold digit in H. rewrite andb_true_iff, !N.leb_le in H. repeat split.
  - unfold white. apply not_true_is_false. intros E. repeat rewrite orb_true_iff in E. repeat rewrite N.eqb_eq in E. lia.
  - intros ->. cbn in H. lia.
  - intros ->. cbn in H. lia.
Qed.
Lemma not_white_lit c r : white c = false -> ~ starts white (String c r).
Proof. cbn. congruence. Qed.
Lemma text_not_white j s r : text j s -> ~ starts white (s ++ r).
Proof. intros H. destruct (text_first _ _ H) as (c & t & -> & Hc). destruct (first_not _ _ Hc) as [W _]. cbn. congruence. Qed.
Lemma elements_not_white l s r : elements l s -> ~ starts white (s ++ r).
Proof. destruct 1; rewrite sapp_assoc; eapply text_not_white; eauto. Qed.
Lemma members_not_white l s r : members l s -> ~ starts white (s ++ r).
Proof. destruct 1; rewrite sapp_assoc, quoted_app; cbn; discriminate. Qed.
Lemma elements_not_close l s r t : elements l s -> s ++ r <> String "]" t.
Proof.
  intros H E. destruct H as [j s w H _|j s w w' l u H _ _ _]; rewrite sapp_assoc in E; destruct (text_first _ _ H) as (c & v & -> & Hc);
    destruct (first_not _ _ Hc) as (_ & N & _); cbn in E; congruence.
Qed.
Lemma members_not_close l s r t : members l s -> s ++ r <> String "}" t.
Proof. intros H E. destruct H; rewrite sapp_assoc, quoted_app in E; discriminate. Qed.

Definition P_text j s (_ : text j s) : Prop :=
  forall j' s' r r', text j' s' -> stop r -> stop r' -> s ++ r = s' ++ r' -> j = j' /\ s = s' /\ r = r'.
Definition P_elements l s (_ : elements l s) : Prop :=
  forall l' s' r r', elements l' s' -> s ++ String "]" r = s' ++ String "]" r' -> l = l' /\ s = s' /\ r = r'.
Definition P_members l s (_ : members l s) : Prop :=
  forall l' s' r r', members l' s' -> s ++ String "}" r = s' ++ String "}" r' -> l = l' /\ s = s' /\ r = r'.

Ltac same_kind Ht' E :=
  let c := fresh "c" in let t := fresh "t" in let E1 := fresh "E1" in let F := fresh "F" in
  destruct (text_first _ _ Ht') as (c & t & E1 & F); rewrite E1 in E; cbn in E; injection E as E0 E; subst c;
  destruct Ht'; cbn in F; try discriminate; kind.

Lemma lit_white c : white c = false -> forall r, ~ starts white (String c r).
Proof. intros H r. cbn. congruence. Qed.

Lemma arr_inv l s : text (JArr l) s -> (exists w, ws w /\ l = [] /\ s = "[" ++ w ++ "]") \/ (exists w u, ws w /\ elements l u /\ s = "[" ++ w ++ u ++ "]").
Proof. intros H. inversion H; subst; eauto 10. Qed.
Lemma obj_inv l s : text (JObj l) s -> (exists w, ws w /\ l = [] /\ s = "{" ++ w ++ "}") \/ (exists w u, ws w /\ members l u /\ s = "{" ++ w ++ u ++ "}").
Proof. intros H. inversion H; subst; eauto 10. Qed.

Ltac under IH Hj' E E2 :=
  let X := fresh in pose proof (fun a b => IH _ _ _ _ Hj' a b E) as X;
  destruct X as (-> & -> & E2); [apply ws_stop; [assumption|cbn; tauto]|apply ws_stop; [assumption|cbn; tauto]|].

Lemma unique_all : (forall j s (h : text j s), P_text j s h) /\ (forall l s (h : elements l s), P_elements l s h) /\
  (forall l s (h : members l s), P_members l s h).
Proof.
  apply json_ind; unfold P_text, P_elements, P_members.
  - (* number *) intros s Hs j' s' r r' Ht Hr Hr' E.
    assert (K : exists c t, s = String c t /\ first (JNum s) c).
    { destruct (number_chars _ Hs) as (_ & c & t & -> & Hc). exists c, t. split; auto. cbn. tauto. }
    destruct K as (c & t & Es & Hc). destruct (text_first _ _ Ht) as (c' & t' & Es' & Hc').
    assert (c' = c) by (rewrite Es, Es' in E; cbn in E; congruence). subst c'.
    pose proof (first_kind _ _ _ Hc Hc') as K. destruct j'; try contradiction. inversion Ht; subst s0 s1 || subst s0.
    destruct (run numchar s s' r r') as [-> ->]; auto using stop_num; apply number_chars; auto.
  - (* string *) intros s Hs j' s' r r' Ht Hr Hr' E.
    destruct (text_first _ _ Ht) as (c' & t' & Es' & Hc').
    assert (c' = quote) by (rewrite Es', quoted_app in E; cbn [append] in E; injection E; auto). subst c'.
    pose proof (first_kind (JStr s) _ _ eq_refl Hc') as K. destruct j'; try contradiction. clear Es'. inversion Ht; subst.
    destruct (quoted_run _ _ _ _ Hs H0 E) as [-> ->]. auto.
  - (* true *) intros j' s' r r' Ht Hr Hr' E. destruct (text_first _ _ Ht) as (c' & t' & Es' & Hc').
    assert (c' = "t"%char) by (rewrite Es' in E; cbn in E; congruence). subst c'.
    pose proof (first_kind JTrue _ _ eq_refl Hc') as K. destruct j'; try contradiction. clear Es'. inversion Ht; subst. apply sapp_cancel in E. auto.
  - (* false *) intros j' s' r r' Ht Hr Hr' E. destruct (text_first _ _ Ht) as (c' & t' & Es' & Hc').
    assert (c' = "f"%char) by (rewrite Es' in E; cbn in E; congruence). subst c'.
    pose proof (first_kind JFalse _ _ eq_refl Hc') as K. destruct j'; try contradiction. clear Es'. inversion Ht; subst. apply sapp_cancel in E. auto.
  - (* null *) intros j' s' r r' Ht Hr Hr' E. destruct (text_first _ _ Ht) as (c' & t' & Es' & Hc').
    assert (c' = "n"%char) by (rewrite Es' in E; cbn in E; congruence). subst c'.
    pose proof (first_kind JNull _ _ eq_refl Hc') as K. destruct j'; try contradiction. clear Es'. inversion Ht; subst. apply sapp_cancel in E. auto.
  - (* empty array *) intros w Hw j' s' r r' Ht Hr Hr' E. destruct (text_first _ _ Ht) as (c' & t' & Es' & Hc').
    assert (c' = "["%char) by (rewrite Es' in E; cbn in E; congruence). subst c'.
    pose proof (first_kind (JArr []) _ _ eq_refl Hc') as K. destruct j'; try contradiction. clear Es'. destruct (arr_inv _ _ Ht) as [(w' & H0 & -> & ->)|(w' & u & H1 & H2 & ->)]; cbn in E; injection E as E; rewrite !sapp_assoc in E.
    + destruct (ws_run _ _ _ _ Hw H0 (lit_white "]" eq_refl _) (lit_white "]" eq_refl _) E) as [-> E2]. injection E2 as ->. auto.
    + destruct (ws_run _ _ _ _ Hw H1 (lit_white "]" eq_refl _) (elements_not_white _ _ _ H2) E) as [-> E2]. exfalso. eapply elements_not_close; [exact H2|symmetry; exact E2].
  - (* array *) intros w l s Hw Hl IH j' s' r r' Ht Hr Hr' E. destruct (text_first _ _ Ht) as (c' & t' & Es' & Hc').
    assert (c' = "["%char) by (rewrite Es' in E; cbn in E; congruence). subst c'.
    pose proof (first_kind (JArr []) _ _ eq_refl Hc') as K. destruct j'; try contradiction. clear Es'. destruct (arr_inv _ _ Ht) as [(w' & H0 & -> & ->)|(w' & u & H1 & H2 & ->)]; cbn in E; injection E as E; rewrite !sapp_assoc in E.
    + destruct (ws_run _ _ _ _ Hw H0 (elements_not_white _ _ _ Hl) (lit_white "]" eq_refl _) E) as [-> E2]. exfalso. eapply elements_not_close; [exact Hl|exact E2].
    + destruct (ws_run _ _ _ _ Hw H1 (elements_not_white _ _ _ Hl) (elements_not_white _ _ _ H2) E) as [-> E2].
      destruct (IH _ _ _ _ H2 E2) as (-> & -> & ->). auto.
  - (* empty object *) intros w Hw j' s' r r' Ht Hr Hr' E. destruct (text_first _ _ Ht) as (c' & t' & Es' & Hc').
    assert (c' = "{"%char) by (rewrite Es' in E; cbn in E; congruence). subst c'.
    pose proof (first_kind (JObj []) _ _ eq_refl Hc') as K. destruct j'; try contradiction. clear Es'. destruct (obj_inv _ _ Ht) as [(w' & H0 & -> & ->)|(w' & u & H1 & H2 & ->)]; cbn in E; injection E as E; rewrite !sapp_assoc in E.
    + destruct (ws_run _ _ _ _ Hw H0 (lit_white "}" eq_refl _) (lit_white "}" eq_refl _) E) as [-> E2]. injection E2 as ->. auto.
    + destruct (ws_run _ _ _ _ Hw H1 (lit_white "}" eq_refl _) (members_not_white _ _ _ H2) E) as [-> E2]. exfalso. eapply members_not_close; [exact H2|symmetry; exact E2].
  - (* object *) intros w l s Hw Hl IH j' s' r r' Ht Hr Hr' E. destruct (text_first _ _ Ht) as (c' & t' & Es' & Hc').
    assert (c' = "{"%char) by (rewrite Es' in E; cbn in E; congruence). subst c'.
    pose proof (first_kind (JObj []) _ _ eq_refl Hc') as K. destruct j'; try contradiction. clear Es'. destruct (obj_inv _ _ Ht) as [(w' & H0 & -> & ->)|(w' & u & H1 & H2 & ->)]; cbn in E; injection E as E; rewrite !sapp_assoc in E.
    + destruct (ws_run _ _ _ _ Hw H0 (members_not_white _ _ _ Hl) (lit_white "}" eq_refl _) E) as [-> E2]. exfalso. eapply members_not_close; [exact Hl|exact E2].
    + destruct (ws_run _ _ _ _ Hw H1 (members_not_white _ _ _ Hl) (members_not_white _ _ _ H2) E) as [-> E2].
      destruct (IH _ _ _ _ H2 E2) as (-> & -> & ->). auto.
  - (* one element *) intros j s w Hj IH Hw l' s' r r' Hl E. destruct Hl as [j' s' w' Hj' Hw'|j' s' w' w2 l' t' Hj' Hw' Hw2 Hl'];
      rewrite !sapp_assoc in E; under IH Hj' E E2.
    + destruct (ws_run _ _ _ _ Hw Hw' (lit_white "]" eq_refl _) (lit_white "]" eq_refl _) E2) as [-> E3]. injection E3 as ->. auto.
    + destruct (ws_run _ _ _ _ Hw Hw' (lit_white "]" eq_refl _) (lit_white "," eq_refl _) E2) as [_ E3]. discriminate.
  - (* more elements *) intros j s w w1 l t Hj IH Hw Hw1 Hl IHl l' s' r r' Hl1 E. destruct Hl1 as [j' s' w' Hj' Hw'|j' s' w' w2 l' t' Hj' Hw' Hw2 Hl'];
      rewrite !sapp_assoc in E; under IH Hj' E E2.
    + destruct (ws_run _ _ _ _ Hw Hw' (lit_white "," eq_refl _) (lit_white "]" eq_refl _) E2) as [_ E3]. discriminate.
    + destruct (ws_run _ _ _ _ Hw Hw' (lit_white "," eq_refl _) (lit_white "," eq_refl _) E2) as [-> E3]. injection E3 as E3. cbn in E3; rewrite ?sapp_assoc in E3.
      destruct (ws_run _ _ _ _ Hw1 Hw2 (elements_not_white _ _ _ Hl) (elements_not_white _ _ _ Hl') E3) as [-> E4].
      destruct (IHl _ _ _ _ Hl' E4) as (-> & -> & ->). auto.
  - (* one member *) intros k w w1 j s w2 Hk Hw Hw1 Hj IH Hw2 l' s' r r' Hl E.
    destruct Hl as [k' w' w1' j' s' w2' Hk' Hw' Hw1' Hj' Hw2'|k' w' w1' j' s' w2' w3' l' t' Hk' Hw' Hw1' Hj' Hw2' Hw3' Hl'];
      rewrite !sapp_assoc in E; destruct (quoted_run _ _ _ _ Hk Hk' E) as [-> E1];
      destruct (ws_run _ _ _ _ Hw Hw' (lit_white ":" eq_refl _) (lit_white ":" eq_refl _) E1) as [-> E2]; injection E2 as E2; cbn in E2; rewrite ?sapp_assoc in E2;
      destruct (ws_run _ _ _ _ Hw1 Hw1' (text_not_white _ _ _ Hj) (text_not_white _ _ _ Hj') E2) as [-> E3];
      under IH Hj' E3 E4.
    + destruct (ws_run _ _ _ _ Hw2 Hw2' (lit_white "}" eq_refl _) (lit_white "}" eq_refl _) E4) as [-> E5]. injection E5 as ->. auto.
    + destruct (ws_run _ _ _ _ Hw2 Hw2' (lit_white "}" eq_refl _) (lit_white "," eq_refl _) E4) as [_ E5]. discriminate.
  - (* more members *) intros k w w1 j s w2 w3 l t Hk Hw Hw1 Hj IH Hw2 Hw3 Hl IHl l' s' r r' Hl1 E.
    destruct Hl1 as [k' w' w1' j' s' w2' Hk' Hw' Hw1' Hj' Hw2'|k' w' w1' j' s' w2' w3' l' t' Hk' Hw' Hw1' Hj' Hw2' Hw3' Hl'];
      rewrite !sapp_assoc in E; destruct (quoted_run _ _ _ _ Hk Hk' E) as [-> E1];
      destruct (ws_run _ _ _ _ Hw Hw' (lit_white ":" eq_refl _) (lit_white ":" eq_refl _) E1) as [-> E2]; injection E2 as E2; cbn in E2; rewrite ?sapp_assoc in E2;
      destruct (ws_run _ _ _ _ Hw1 Hw1' (text_not_white _ _ _ Hj) (text_not_white _ _ _ Hj') E2) as [-> E3];
      under IH Hj' E3 E4.
    + destruct (ws_run _ _ _ _ Hw2 Hw2' (lit_white "," eq_refl _) (lit_white "}" eq_refl _) E4) as [_ E5]. discriminate.
    + destruct (ws_run _ _ _ _ Hw2 Hw2' (lit_white "," eq_refl _) (lit_white "," eq_refl _) E4) as [-> E5]. injection E5 as E5. cbn in E5; rewrite ?sapp_assoc in E5.
      destruct (ws_run _ _ _ _ Hw3 Hw3' (members_not_white _ _ _ Hl) (members_not_white _ _ _ Hl') E5) as [-> E6].
      destruct (IHl _ _ _ _ Hl' E6) as (-> & -> & ->). auto.
Qed.

Lemma text_unique j s : text j s -> forall j' s' r r', text j' s' -> stop r -> stop r' -> s ++ r = s' ++ r' -> j = j' /\ s = s' /\ r = r'.
Proof. intros H. apply (proj1 unique_all j s H). Qed.
Lemma document_unique j j' s : document j s -> document j' s -> j = j'.
Proof.
  intros (w & t & v & -> & Hw & Ht & Hv) (w' & t' & v' & E & Hw' & Ht' & Hv').
  destruct (ws_run _ _ _ _ Hw Hw' (text_not_white _ _ _ Ht) (text_not_white _ _ _ Ht') E) as [-> E2].
  assert (S : forall x, ws x -> stop x) by (intros x Hx; rewrite <- (sapp_nil x); apply ws_stop; cbn; auto).
  destruct (text_unique _ _ Ht _ _ _ _ Ht' (S _ Hv) (S _ Hv') E2) as (-> & _). auto.
Qed.
