(** When texts are JSON, and what they tell. *)
From Coq Require Import List String Ascii NArith ZArith Bool Lia.
Import ListNotations.
From Verif Require Import JsonSpec JsonProofs Repr ReprSpec ReprProofs ReprOnly.
Local Open Scope string_scope.

Lemma reads_intro P v s : weighs P s -> (P -> text v s) -> reads P v s.
Proof.
  intros H1 H2 j. split.
  - intros H. pose proof (weighs_document _ _ _ H1 H) as HP. split; auto. apply (document_unique _ _ s); auto. apply document_of; auto.
  - intros [HP ->]. apply document_of; auto.
Qed.

Section Main.
Context {T : Type}.
Variables show6 show15 : T -> string.
Variable finite : T -> Prop.
Hypothesis W6 : writes finite show6.
Hypothesis W15 : writes finite show15.

Lemma texts_read :
  (forall g, reads (fin_gauss finite g) (v_gauss show6 show15 g) (repr_gauss show6 show15 g)) /\
  (forall t, reads (fin_gauss finite (rs_g t)) (v_summary show6 show15 t) (repr_summary show6 show15 t)) /\
  (forall r, reads (fin_report finite r) (v_report show15 r) (repr_report show15 r)) /\
  (forall l, reads (Forall (fin_report finite) l) (JArr (map (v_report show15) l)) (repr_reports show15 l)) /\
  (forall c, reads (Forall (fin_gauss finite) c) (v_mix show6 show15 c) (repr_mix show6 show15 c)) /\
  (forall t, reads (fin_target finite t) (v_target show6 show15 t) (repr_target show6 show15 t)) /\
  (forall rs ts, reads (Forall (fin_report finite) rs /\ Forall (fin_target finite) ts) (v_cluster show6 show15 rs ts) (repr_cluster show6 show15 rs ts)) /\
  (forall ts, reads (Forall (fin_target finite) ts) (v_tracker show6 show15 ts) (repr_tracker show6 show15 ts)) /\
  (forall w x, reads (fin_mat finite w /\ fin_mat finite x) (v_pf show15 w x) (repr_pf show15 w x)) /\
  (forall c, reads (fin_mat finite c) (v_bbox show15 c) (repr_bbox show15 c)) /\
  (forall a b c d j, ~ document j (repr_aabbox show6 a b c d)).
Proof.
  repeat match goal with |- _ /\ _ => split end; try (intros; apply aabbox_text); intros; apply reads_intro.
  - apply only_gauss; auto.
  - eapply gauss_text; eauto.
  - apply only_summary; auto.
  - eapply summary_text; eauto.
  - apply only_report; auto.
  - eapply report_text; eauto.
  - apply only_reports; auto.
  - eapply reports_text; eauto.
  - apply only_mix; auto.
  - eapply mix_text; eauto.
  - apply only_target; auto.
  - eapply target_text; eauto.
  - apply only_cluster; auto.
  - intros [A B]. eapply cluster_text; eauto.
  - apply only_tracker; auto.
  - eapply tracker_text; eauto.
  - apply only_pf; auto.
  - intros [A B]. eapply pf_text; eauto.
  - apply only_bbox; auto.
  - eapply bbox_text; eauto.
Qed.

(** The same text, the same digits. *)
Lemma map_like {A B} (f : A -> B) (S : A -> A -> Prop) : (forall a b, f a = f b -> S a b) -> forall l l', map f l = map f l' -> Forall2 S l l'.
Proof. intros H. induction l as [|a l IH]; intros [|b l'] E; try discriminate; constructor; injection E; auto. Qed.
Lemma map_like_in {A B} (f : A -> B) (S : A -> A -> Prop) (D : A -> Prop) :
  (forall a b, D a -> D b -> f a = f b -> S a b) -> forall l l', Forall D l -> Forall D l' -> map f l = map f l' -> Forall2 S l l'.
Proof.
  intros H. induction l as [|a l IH]; intros [|b l'] Hl Hl' E; try discriminate; constructor;
    inversion Hl; inversion Hl'; subst; injection E; auto.
Qed.
Lemma mat_like m m' : (List.concat m = [] -> m = []) -> (List.concat m' = [] -> m' = []) -> mat show15 m = mat show15 m' -> like_mat show15 m m'.
Proof.
  intros H H' E. unfold mat in E.
  assert (Z : forall k : list (list T), Nat.eqb (List.length (List.concat k)) 0 = true -> List.concat k = []) by (intros k B; apply Nat.eqb_eq, length_zero_iff_nil in B; auto).
  destruct (Nat.eqb (List.length (List.concat m)) 0) eqn:A; destruct (Nat.eqb (List.length (List.concat m')) 0) eqn:A'.
  - rewrite H, H' by auto. constructor.
  - injection E as E. destruct m'; [discriminate|]. discriminate.
  - injection E as E. destruct m; [discriminate|]. discriminate.
  - injection E as E. apply (map_like (fun r => JArr (map (fun x => JNum (show15 x)) r))); [|exact E].
    intros r r' F. injection F as F. apply (map_like (fun x => JNum (show15 x))); [|exact F]. intros x y G. injection G as G. exact G.
Qed.
Lemma rows_full k (m : list (list T)) n : List.length m = n -> Forall (fun r => List.length r = k) m -> (n = 0 \/ k <> 0) -> List.concat m = [] -> m = [].
Proof.
  intros L F K E. destruct m as [|r m]; auto. inversion F; subst. cbn in E. destruct r; [|discriminate]. cbn in K. destruct K; [discriminate|]. congruence.
Qed.
Lemma gauss_like n n' a b : shaped n a -> shaped n' b -> v_gauss show6 show15 a = v_gauss show6 show15 b -> like_gauss show6 show15 a b.
Proof.
  intros (A1 & A2 & A3 & A4) (B1 & B2 & B3 & B4) E. unfold v_gauss in E.
  assert (E1 : show6 (rg_w a) = show6 (rg_w b)) by congruence.
  assert (E2 : mat show15 (rg_x a) = mat show15 (rg_x b)) by congruence.
  assert (E3 : mat show15 (rg_P a) = mat show15 (rg_P b)) by congruence.
  split; auto. split; apply mat_like; auto.
  - apply (rows_full 1 _ n); auto.
  - apply (rows_full 1 _ n'); auto.
  - apply (rows_full n _ n); auto. destruct n; auto.
  - apply (rows_full n' _ n'); auto. destruct n'; auto.
Qed.
Lemma target_like a b : Forall (fun g => exists n, shaped n g) (rt_pdf a) -> Forall (fun g => exists n, shaped n g) (rt_pdf b) ->
  v_target show6 show15 a = v_target show6 show15 b -> like_target show6 show15 a b.
Proof.
  intros A B E. unfold v_target in E.
  assert (E1 : dec (rt_id a) = dec (rt_id b)) by congruence.
  assert (E2 : dec (rt_cid a) = dec (rt_cid b)) by congruence.
  assert (E3 : v_action (rt_la a) = v_action (rt_la b)) by congruence.
  assert (E4 : show6 (rt_r a) = show6 (rt_r b)) by congruence.
  assert (E5 : map (v_gauss show6 show15) (rt_pdf a) = map (v_gauss show6 show15) (rt_pdf b)) by (unfold v_mix in E; congruence).
  split; [apply dec_inj, E1|]. split; [apply dec_inj, E2|]. split; [destruct (rt_la a), (rt_la b); auto; discriminate|]. split; auto.
  apply (map_like_in (v_gauss show6 show15) _ (fun g => exists n, shaped n g)); auto.
  intros g h (n & Hn) (n' & Hn'). apply (gauss_like n n'); auto.
Qed.
Lemma same_text ts ts' :
  Forall (fin_target finite) ts -> Forall (fun t => Forall (fun g => exists n, shaped n g) (rt_pdf t)) ts ->
  Forall (fun t => Forall (fun g => exists n, shaped n g) (rt_pdf t)) ts' ->
  repr_tracker show6 show15 ts = repr_tracker show6 show15 ts' -> Forall2 (like_target show6 show15) ts ts'.
Proof.
  intros F S S' E. destruct texts_read as (_ & _ & _ & _ & _ & _ & _ & H & _).
  assert (D : document (v_tracker show6 show15 ts) (repr_tracker show6 show15 ts)) by (apply H; auto).
  rewrite E in D. apply H in D. destruct D as [_ D]. unfold v_tracker in D.
  assert (M : map (v_target show6 show15) ts = map (v_target show6 show15) ts') by congruence.
  revert M. apply (map_like_in (v_target show6 show15) _ (fun t => Forall (fun g => exists n, shaped n g) (rt_pdf t))); auto.
  intros a b Ha Hb. apply target_like; auto.
Qed.
End Main.
