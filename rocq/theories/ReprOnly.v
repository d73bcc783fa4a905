(** Only objects whose numbers are finite have JSON texts: outside of its strings a
    JSON text has no letter i and as many letters a as letters f, and inf and nan
    spoil one or the other. *)
From Coq Require Import List String Ascii NArith ZArith Bool Lia.
Import ListNotations.
From Verif Require Import JsonSpec JsonProofs Repr ReprSpec ReprProofs.
Local Open Scope string_scope.

(** What stands outside of the strings. *)
Fixpoint outside (q : bool) (s : string) : string :=
  match s with
  | "" => ""
  | String c s =>
    if q then
      if Ascii.eqb c backslash then match s with "" => "" | String _ s => outside true s end
      else outside (negb (Ascii.eqb c quote)) s
    else if Ascii.eqb c quote then outside true s else String c (outside false s)
  end.
Fixpoint count (c : ascii) (s : string) : Z :=
  match s with "" => 0 | String d s => ((if Ascii.eqb d c then 1 else 0) + count c s)%Z end.
Definition is_ (s : string) : Z := count "i" (outside false s).
Definition af_ (s : string) : Z := (count "a" (outside false s) - count "f" (outside false s))%Z.

Definition adds (s : string) (i d : Z) : Prop := forall r, is_ (s ++ r) = (i + is_ r)%Z /\ af_ (s ++ r) = (d + af_ r)%Z.
Lemma adds_app s t i d i' d' : adds s i d -> adds t i' d' -> adds (s ++ t) (i + i') (d + d').
Proof. intros H H' r. rewrite sapp_assoc. destruct (H (t ++ r)) as [-> ->]. destruct (H' r) as [-> ->]. lia. Qed.
Definition clean (s : string) : Prop := adds s 0 0.
Lemma clean_app s t : clean s -> clean t -> clean (s ++ t).
Proof. apply (adds_app s t 0 0 0 0). Qed.
Lemma clean_nil : clean "". Proof. intros r. split; reflexivity. Qed.

Definition letter (c : ascii) : bool := Ascii.eqb c "i" || Ascii.eqb c "a" || Ascii.eqb c "f" || Ascii.eqb c quote.
Lemma clean_all p s : (forall c, p c = true -> letter c = false) -> all p s = true -> clean s.
Proof.
  intros P. induction s as [|c s IH]; cbn [all]; [intros _; apply clean_nil|]. rewrite andb_true_iff. intros [H1 H2] r.
  destruct (IH H2 r) as [A B]. unfold is_, af_ in *. cbn [append outside]. specialize (P c H1). unfold letter in P.
  rewrite !orb_false_iff in P. destruct P as (((P1 & P2) & P3) & P4). rewrite P4. cbn [count]. rewrite P1, P2, P3. lia.
Qed.
Lemma not_letter (p : ascii -> bool) : p "i"%char = false -> p "a"%char = false -> p "f"%char = false -> p quote = false -> forall c, p c = true -> letter c = false.
Proof.
  intros H1 H2 H3 H4 c Hc. unfold letter. rewrite !orb_false_iff. repeat split; apply Ascii.eqb_neq; intros ->; congruence.
Qed.
Lemma clean_ws s : ws s -> clean s.
Proof. apply clean_all, not_letter; reflexivity. Qed.
Lemma clean_number s : number s -> clean s.
Proof. intros H. apply (clean_all numchar); [apply not_letter; reflexivity|]. apply number_chars, H. Qed.

Lemma hex_plain c : hex c = true -> c <> backslash /\ c <> quote.
Proof. intros H. split; intros ->; discriminate. Qed.
Lemma in_string k : chars k -> forall r, outside true (k ++ String quote r) = outside false r.
Proof.
  induction 1 as [|c s Hc Hs IH|c s Hc Hs IH|a b c d s Ha Hb Hc Hd Hs IH]; intros r.
  - reflexivity.
  - cbn [append outside]. assert (B : Ascii.eqb c backslash = false) by (apply Ascii.eqb_neq; intros ->; discriminate).
    assert (Q : Ascii.eqb c quote = false) by (apply Ascii.eqb_neq; intros ->; discriminate). rewrite B, Q. apply IH.
  - cbn [append]. change (outside true (String backslash (String c (s ++ String quote r)))) with (outside true (s ++ String quote r)). apply IH.
  - cbn [append].
    change (outside true (String backslash (String "u" (String a (String b (String c (String d (s ++ String quote r))))))))
      with (outside true (String a (String b (String c (String d (s ++ String quote r)))))).
    cbn [outside].
    repeat match goal with H : hex ?x = true |- _ => destruct (hex_plain x H) as [?%Ascii.eqb_neq ?%Ascii.eqb_neq]; clear H end.
    repeat match goal with H : Ascii.eqb _ _ = false |- _ => rewrite H; clear H; cbn [negb] end. apply IH.
Qed.
Lemma clean_quoted k : chars k -> clean (quoted k).
Proof.
  intros H r. unfold is_, af_. rewrite quoted_app. cbn [outside append]. change (Ascii.eqb quote quote) with true. cbn iota.
  rewrite in_string by auto. lia.
Qed.
Lemma adds_lit s : (forall r, outside false (s ++ r) = outside false s ++ outside false r) -> adds s (is_ s) (af_ s).
Proof.
  intros H r. unfold is_, af_. rewrite H.
  assert (C : forall c a b, count c (a ++ b) = (count c a + count c b)%Z) by (intros c a b; induction a as [|d a IH]; cbn [count append]; lia).
  rewrite !C. lia.
Qed.
Lemma clean_lit s : is_ s = 0%Z -> af_ s = 0%Z -> (forall r, outside false (s ++ r) = outside false s ++ outside false r) -> clean s.
Proof. intros H1 H2 H. unfold clean. rewrite <- H1 at 1. rewrite <- H2. apply adds_lit, H. Qed.
Ltac lit := apply clean_lit; [reflexivity|reflexivity|intros; reflexivity].
Scheme text_ind3 := Minimality for text Sort Prop
  with elements_ind3 := Minimality for elements Sort Prop
  with members_ind3 := Minimality for members Sort Prop.
Lemma clean_text j s : text j s -> clean s.
Proof.
  apply (text_ind3 (fun _ s => clean s) (fun _ s => clean s) (fun _ s => clean s)); intros;
    repeat apply clean_app; auto using clean_number, clean_quoted, clean_ws; lit.
Qed.
Lemma clean_document j s : document j s -> is_ s = 0%Z /\ af_ s = 0%Z.
Proof.
  intros (w & t & w' & -> & Hw & Ht & Hw').
  assert (C : clean (w ++ t ++ w')) by (repeat apply clean_app; eauto using clean_ws, clean_text).
  destruct (C "") as [A B]. rewrite sapp_nil in A, B. cbn in A, B. auto.
Qed.

(** A text whose letters are balanced only if [P]. *)
Definition weighs (P : Prop) (s : string) : Prop :=
  exists i d, adds s i d /\ (0 <= i)%Z /\ (i = 0%Z -> (0 <= d)%Z) /\ (i = 0%Z -> d = 0%Z -> P).
Lemma weighs_app P Q s t : weighs P s -> weighs Q t -> weighs (P /\ Q) (s ++ t).
Proof.
  intros (i & d & A & B & C & D) (i' & d' & A' & B' & C' & D'). exists (i + i')%Z, (d + d')%Z.
  split; [apply adds_app; auto|]. split; [lia|]. split; [intros; assert (i = 0 /\ i' = 0)%Z by lia; intuition lia|].
  intros E F. assert (i = 0 /\ i' = 0)%Z as [X Y] by lia. specialize (C X). specialize (C' Y). split; [apply D|apply D']; lia.
Qed.
Lemma weighs_clean s : clean s -> weighs True s.
Proof. intros H. exists 0%Z, 0%Z. split; auto. split; [lia|]. split; [lia|auto]. Qed.
Lemma weighs_impl (P Q : Prop) s : (P -> Q) -> weighs P s -> weighs Q s.
Proof. intros H (i & d & A & B & C & D). exists i, d. auto 10. Qed.
Lemma weighs_document P j s : weighs P s -> document j s -> P.
Proof.
  intros (i & d & A & B & C & D) H. destruct (clean_document _ _ H) as [X Y]. destruct (A "") as [A1 A2]. rewrite sapp_nil in A1, A2. cbn in A1, A2.
  apply D; lia.
Qed.
Lemma weighs_listed {A} (P : A -> Prop) (sh : A -> string) : (forall a, weighs (P a) (sh a)) -> forall l b, weighs (Forall P l) (listed sh b l).
Proof.
  intros H. induction l as [|a l IH]; intros b.
  - apply (weighs_impl True); [auto|]. apply weighs_clean, clean_nil.
  - cbn [listed]. apply (weighs_impl (True /\ P a /\ Forall P l)); [intros (_ & X & Y); auto|].
    apply weighs_app; [apply weighs_clean; destruct b; lit|]. apply weighs_app; auto.
Qed.

Section Only.
Context {T : Type}.
Variables show6 show15 : T -> string.
Variable finite : T -> Prop.
Hypothesis W6 : writes finite show6.
Hypothesis W15 : writes finite show15.

Lemma weighs_number show x : writes finite show -> weighs (finite x) (show x).
Proof.
  intros W. destruct (W x) as [[F N]|[F N]].
  - apply (weighs_impl True); auto. apply weighs_clean, clean_number, N.
  - cbn in N. destruct N as [<-|[<-|[<-|[<-|[]]]]]; [exists 1%Z, (-1)%Z|exists 0%Z, 1%Z|exists 1%Z, (-1)%Z|exists 0%Z, 1%Z];
      (split; [match goal with |- adds ?s _ _ => exact (adds_lit s (fun r => eq_refl)) end|]); lia.
Qed.
Lemma weighs_fmt m : weighs (fin_mat finite m) (fmt show15 m).
Proof.
  unfold fmt. rewrite empty_mat. destruct (Nat.eqb _ 0) eqn:E.
  - apply (weighs_impl True); [|apply weighs_clean; lit]. intros _. apply Nat.eqb_eq in E. unfold fin_mat. induction m as [|r m IH]; constructor.
    + cbn in E. rewrite app_length in E. destruct r; [constructor|discriminate].
    + apply IH. cbn in E. rewrite app_length in E. lia.
  - apply (weighs_impl (True /\ fin_mat finite m /\ True)); [tauto|]. apply weighs_app; [apply weighs_clean; lit|]. apply weighs_app; [|apply weighs_clean; lit].
    apply weighs_listed. intros r. unfold fmt_row. apply (weighs_impl (True /\ Forall finite r /\ True)); [tauto|].
    apply weighs_app; [apply weighs_clean; lit|]. apply weighs_app; [|apply weighs_clean; lit]. apply weighs_listed. intros x. apply weighs_number, W15.
Qed.
Lemma weighs_unsigned n : weighs True (show_unsigned n).
Proof. apply weighs_clean, clean_number, number_dec. Qed.

(** Goes through the parts of a text. *)
Ltac parts rest := lazymatch goal with
  | |- weighs _ (append _ _) => eapply weighs_app; [parts rest|parts rest]
  | |- weighs _ (fmt _ _) => apply weighs_fmt
  | |- weighs _ (show6 _) => apply (weighs_number show6), W6
  | |- weighs _ (show_unsigned _) => apply weighs_unsigned
  | |- weighs _ (String _ _) => apply weighs_clean; lit
  | |- _ => rest
  end.
Lemma only_gauss g : weighs (fin_gauss finite g) (repr_gauss show6 show15 g).
Proof. unfold repr_gauss. eapply weighs_impl; [|parts fail]. unfold fin_gauss. tauto. Qed.
Lemma only_summary t : weighs (fin_gauss finite (rs_g t)) (repr_summary show6 show15 t).
Proof. unfold repr_summary. eapply weighs_impl; [|parts fail]. unfold fin_gauss. tauto. Qed.
Lemma only_report r : weighs (fin_report finite r) (repr_report show15 r).
Proof. unfold repr_report. eapply weighs_impl; [|parts fail]. unfold fin_report. tauto. Qed.
Lemma only_reports l : weighs (Forall (fin_report finite) l) (repr_reports show15 l).
Proof. unfold repr_reports. eapply weighs_impl; [|parts ltac:(apply (weighs_listed (fin_report finite)), only_report)]. tauto. Qed.
Lemma only_mix c : weighs (Forall (fin_gauss finite) c) (repr_mix show6 show15 c).
Proof. unfold repr_mix. eapply weighs_impl; [|parts ltac:(apply (weighs_listed (fin_gauss finite)), only_gauss)]. tauto. Qed.
Lemma only_target t : weighs (fin_target finite t) (repr_target show6 show15 t).
Proof.
  unfold repr_target.
  replace (",""la"":""" ++ show_action (rt_la t) ++ """,""r"":" ++ show6 (rt_r t) ++ ",""pdf"":" ++ repr_mix show6 show15 (rt_pdf t) ++ "}")
    with (",""la"":" ++ quoted (show_action (rt_la t)) ++ ",""r"":" ++ show6 (rt_r t) ++ ",""pdf"":" ++ repr_mix show6 show15 (rt_pdf t) ++ "}")
    by (destruct (rt_la t); reflexivity).
  eapply weighs_impl; [|parts ltac:(idtac; lazymatch goal with
    | |- weighs _ (quoted _) => apply weighs_clean, clean_quoted; destruct (rt_la t); apply plain_chars; reflexivity
    | |- _ => apply only_mix end)].
  unfold fin_target. tauto.
Qed.
Lemma only_cluster rs ts : weighs (Forall (fin_report finite) rs /\ Forall (fin_target finite) ts) (repr_cluster show6 show15 rs ts).
Proof.
  unfold repr_cluster. eapply weighs_impl; [|parts ltac:(idtac; lazymatch goal with
    | |- weighs _ (listed (repr_report _) _ _) => apply (weighs_listed (fin_report finite)), only_report
    | |- _ => apply (weighs_listed (fin_target finite)), only_target end)].
  tauto.
Qed.
Lemma only_tracker ts : weighs (Forall (fin_target finite) ts) (repr_tracker show6 show15 ts).
Proof. unfold repr_tracker. eapply weighs_impl; [|parts ltac:(apply (weighs_listed (fin_target finite)), only_target)]. tauto. Qed.
Lemma only_pf w x : weighs (fin_mat finite w /\ fin_mat finite x) (repr_pf show15 w x).
Proof. unfold repr_pf. eapply weighs_impl; [|parts fail]. tauto. Qed.
Lemma only_bbox c : weighs (fin_mat finite c) (repr_bbox show15 c).
Proof. unfold repr_bbox. eapply weighs_impl; [|parts fail]. tauto. Qed.
End Only.
