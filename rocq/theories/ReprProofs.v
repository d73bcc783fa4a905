(** The texts of the objects are JSON. *)
From Coq Require Import List String Ascii NArith Bool Lia DecimalString DecimalN Decimal DecimalFacts.
Import ListNotations.
From Verif Require Import JsonSpec JsonProofs Repr ReprSpec.
Local Open Scope string_scope.

(** Unsigned integers. *)
Lemma digits_uint d : all digit (NilEmpty.string_of_uint d) = true.
Proof. induction d; cbn; auto. Qed.
Lemma number_int i : int_part i -> number i.
Proof. intros H. exists "", i, "", "". split; [cbn; rewrite !sapp_nil; auto|]. split; auto. split; auto. split; constructor. Qed.
Lemma number_uint d : unorm d = d -> number (NilZero.string_of_uint d).
Proof.
  intros H. apply number_int. destruct d; cbn; try (constructor; [reflexivity|discriminate|apply digits_uint]).
  - constructor.
  - assert (E : D0 d = D0 Nil).
    { unfold unorm in H. cbn in H. pose proof (nzhead_nonzero d) as N. destruct (nzhead d) eqn:E; [congruence|..]; exfalso; try discriminate. exact (N _ eq_refl). }
    injection E as ->. constructor.
Qed.
Lemma number_dec n : number (NilZero.string_of_uint (N.to_uint n)).
Proof.
  apply number_uint. rewrite <- (Unsigned.to_of (N.to_uint n)). rewrite Unsigned.of_to. reflexivity.
Qed.

Lemma dec_inj n m : dec n = dec m -> n = m.
Proof.
  unfold dec. intros H. injection H as H.
  assert (X : forall k, NilZero.uint_of_string (NilZero.string_of_uint (N.to_uint k)) = Some (N.to_uint k)).
  { intros k. apply NilZero.usu. intros E. pose proof (Unsigned.of_to k) as O. rewrite E in O.
    destruct k; [discriminate|]. discriminate. }
  pose proof (X n) as A. rewrite H, X in A. injection A as A. apply Unsigned.to_uint_inj. auto.
Qed.

(** Building blocks without white space. *)
Lemma ws0 : ws "". Proof. reflexivity. Qed.
Lemma text_eq j s s' : text j s' -> s = s' -> text j s. Proof. intros H ->. exact H. Qed.
Lemma plain_chars s : all plain s = true -> chars s.
Proof. induction s as [|c s IH]; cbn; [constructor|]. rewrite andb_true_iff. intros [H1 H2]. constructor; auto. Qed.
Lemma el1 j s : text j s -> elements [j] s.
Proof. intros H. rewrite <- (sapp_nil s). apply (el_one j s ""); auto using ws0. Qed.
Lemma elc j s l t : text j s -> elements l t -> elements (j :: l) (s ++ "," ++ t).
Proof. intros H H'. apply (el_more j s "" "" l t); auto using ws0. Qed.
Lemma mem1 k j s : all plain k = true -> text j s -> members [(k, j)] (quoted k ++ ":" ++ s).
Proof. intros Hk H. rewrite <- (sapp_nil s). apply (mem_one k "" "" j s ""); auto using ws0, plain_chars. Qed.
Lemma memc k j s l t : all plain k = true -> text j s -> members l t -> members ((k, j) :: l) (quoted k ++ ":" ++ s ++ "," ++ t).
Proof. intros Hk H H'. apply (mem_more k "" "" j s "" "" l t); auto using ws0, plain_chars. Qed.
Lemma obj l s : members l s -> text (JObj l) ("{" ++ s ++ "}").
Proof. intros H. apply (text_obj "" l s); auto using ws0. Qed.
Lemma str s : all plain s = true -> text (JStr s) (quoted s).
Proof. intros H. constructor. apply plain_chars, H. Qed.

Lemma listed_false {A} (sh : A -> string) l : l <> [] -> listed sh false l = "," ++ listed sh true l.
Proof. destruct l; [congruence|]. reflexivity. Qed.
Lemma listed_elements {A} (sh : A -> string) (v : A -> json) l : l <> [] -> Forall (fun a => text (v a) (sh a)) l -> elements (map v l) (listed sh true l).
Proof.
  induction l as [|a l IH]; [congruence|]. intros _ H. inversion H as [|? ? Ha Hl]; subst. cbn [map listed append].
  destruct l as [|b l].
  - cbn. rewrite sapp_nil. apply el1, Ha.
  - rewrite listed_false by discriminate. apply (elc (v a) (sh a)); auto. apply IH; [discriminate|auto].
Qed.
Lemma arr {A} (sh : A -> string) (v : A -> json) l : Forall (fun a => text (v a) (sh a)) l -> text (JArr (map v l)) ("[" ++ listed sh true l ++ "]").
Proof.
  intros H. destruct l as [|a l]; [apply (text_arr0 ""), ws0|]. apply (text_arr "" (map v (a :: l))); [apply ws0|]. apply listed_elements; [discriminate|auto].
Qed.

Section Texts.
Context {T : Type}.
Variables show6 show15 : T -> string.
Variable finite : T -> Prop.
Hypothesis W6 : writes finite show6.
Hypothesis W15 : writes finite show15.

Lemma num6 x : finite x -> text (JNum (show6 x)) (show6 x).
Proof. intros H. constructor. destruct (W6 x); tauto. Qed.
Lemma num15 x : finite x -> text (JNum (show15 x)) (show15 x).
Proof. intros H. constructor. destruct (W15 x); tauto. Qed.
Lemma empty_mat (m : list (list T)) :
  forallb (fun r => match r with [] => true | _ => false end) m = Nat.eqb (List.length (List.concat m)) 0.
Proof. induction m as [|r m IH]; cbn; auto. rewrite app_length, IH. destruct r; cbn; auto. Qed.
Lemma mat_text m : fin_mat finite m -> text (mat show15 m) (fmt show15 m).
Proof.
  intros H. unfold mat, fmt. rewrite empty_mat. destruct (Nat.eqb _ 0); [apply (text_arr0 ""), ws0|].
  apply arr. eapply Forall_impl; [|exact H]. intros r Hr. unfold fmt_row. apply arr. eapply Forall_impl; [|exact Hr]. intros x Hx. apply num15, Hx.
Qed.
Lemma dec_text n : text (dec n) (show_unsigned n).
Proof. constructor. apply number_dec. Qed.
Lemma action_text a : text (v_action a) (quoted (show_action a)).
Proof. destruct a; apply str; reflexivity. Qed.
Ltac flat := repeat first [rewrite sapp_assoc | progress cbn]; reflexivity.

Lemma gauss_text g : fin_gauss finite g -> text (v_gauss show6 show15 g) (repr_gauss show6 show15 g).
Proof.
  intros (H1 & H2 & H3). unfold v_gauss, repr_gauss. eapply text_eq.
  - apply obj. apply memc; [reflexivity|apply str; reflexivity|]. apply memc; [reflexivity|apply num6, H1|]. apply memc; [reflexivity|apply mat_text, H2|].
    apply mem1; [reflexivity|apply mat_text, H3].
  - flat.
Qed.
Lemma summary_text t : fin_gauss finite (rs_g t) -> text (v_summary show6 show15 t) (repr_summary show6 show15 t).
Proof.
  intros (H1 & H2 & H3). unfold v_summary, repr_summary. eapply text_eq.
  - apply obj. apply memc; [reflexivity|apply str; reflexivity|]. apply memc; [reflexivity|apply dec_text|]. apply memc; [reflexivity|apply num6, H1|].
    apply memc; [reflexivity|apply mat_text, H2|]. apply mem1; [reflexivity|apply mat_text, H3].
  - flat.
Qed.
Lemma report_text r : fin_report finite r -> text (v_report show15 r) (repr_report show15 r).
Proof.
  intros (H2 & H3). unfold v_report, repr_report. eapply text_eq.
  - apply obj. apply memc; [reflexivity|apply str; reflexivity|]. apply memc; [reflexivity|apply mat_text, H2|]. apply mem1; [reflexivity|apply mat_text, H3].
  - flat.
Qed.
Lemma mix_text c : Forall (fin_gauss finite) c -> text (v_mix show6 show15 c) (repr_mix show6 show15 c).
Proof.
  intros H. unfold v_mix, repr_mix. eapply text_eq.
  - apply obj. apply memc; [reflexivity|apply str; reflexivity|]. apply mem1; [reflexivity|]. apply (arr (repr_gauss show6 show15)).
    eapply Forall_impl; [|exact H]. intros g. apply gauss_text.
  - flat.
Qed.
Lemma target_text t : fin_target finite t -> text (v_target show6 show15 t) (repr_target show6 show15 t).
Proof.
  intros (H1 & H2). unfold v_target, repr_target. eapply text_eq.
  - apply obj. apply memc; [reflexivity|apply dec_text|]. apply memc; [reflexivity|apply dec_text|]. apply memc; [reflexivity|apply action_text|].
    apply memc; [reflexivity|apply num6, H1|]. apply mem1; [reflexivity|apply mix_text, H2].
  - flat.
Qed.
Lemma reports_text l : Forall (fin_report finite) l -> text (JArr (map (v_report show15) l)) (repr_reports show15 l).
Proof. intros H. apply arr. eapply Forall_impl; [|exact H]. intros r. apply report_text. Qed.
Lemma cluster_text rs ts : Forall (fin_report finite) rs -> Forall (fin_target finite) ts ->
  text (v_cluster show6 show15 rs ts) (repr_cluster show6 show15 rs ts).
Proof.
  intros H1 H2. unfold v_cluster, repr_cluster. eapply text_eq.
  - apply obj. apply memc; [reflexivity|apply str; reflexivity|]. apply memc; [reflexivity|apply reports_text, H1|]. apply mem1; [reflexivity|].
    apply (arr (repr_target show6 show15)). eapply Forall_impl; [|exact H2]. intros g. apply target_text.
  - unfold repr_reports. flat.
Qed.
Lemma tracker_text ts : Forall (fin_target finite) ts -> text (v_tracker show6 show15 ts) (repr_tracker show6 show15 ts).
Proof.
  intros H2. unfold v_tracker, repr_tracker. eapply text_eq.
  - apply obj. apply mem1; [reflexivity|]. apply (arr (repr_target show6 show15)). eapply Forall_impl; [|exact H2]. intros g. apply target_text.
  - flat.
Qed.
Lemma pf_text w x : fin_mat finite w -> fin_mat finite x -> text (v_pf show15 w x) (repr_pf show15 w x).
Proof.
  intros H2 H3. unfold v_pf, repr_pf. eapply text_eq.
  - apply obj. apply memc; [reflexivity|apply str; reflexivity|]. apply memc; [reflexivity|apply mat_text, H2|]. apply mem1; [reflexivity|apply mat_text, H3].
  - flat.
Qed.
Lemma bbox_text c : fin_mat finite c -> text (v_bbox show15 c) (repr_bbox show15 c).
Proof.
  intros H2. unfold v_bbox, repr_bbox. eapply text_eq.
  - apply obj. apply memc; [reflexivity|apply str; reflexivity|]. apply mem1; [reflexivity|apply mat_text, H2].
  - flat.
Qed.

Lemma document_of j s : text j s -> document j s.
Proof. intros H. exists "", s, "". cbn. rewrite sapp_nil. auto using ws0. Qed.

Lemma texts :
  (forall g, fin_gauss finite g -> document (v_gauss show6 show15 g) (repr_gauss show6 show15 g)) /\
  (forall t, fin_gauss finite (rs_g t) -> document (v_summary show6 show15 t) (repr_summary show6 show15 t)) /\
  (forall r, fin_report finite r -> document (v_report show15 r) (repr_report show15 r)) /\
  (forall l, Forall (fin_report finite) l -> document (JArr (map (v_report show15) l)) (repr_reports show15 l)) /\
  (forall c, Forall (fin_gauss finite) c -> document (v_mix show6 show15 c) (repr_mix show6 show15 c)) /\
  (forall t, fin_target finite t -> document (v_target show6 show15 t) (repr_target show6 show15 t)) /\
  (forall rs ts, Forall (fin_report finite) rs -> Forall (fin_target finite) ts ->
     document (v_cluster show6 show15 rs ts) (repr_cluster show6 show15 rs ts)) /\
  (forall ts, Forall (fin_target finite) ts -> document (v_tracker show6 show15 ts) (repr_tracker show6 show15 ts)) /\
  (forall w x, fin_mat finite w -> fin_mat finite x -> document (v_pf show15 w x) (repr_pf show15 w x)) /\
  (forall c, fin_mat finite c -> document (v_bbox show15 c) (repr_bbox show15 c)).
Proof.
  repeat split; intros; apply document_of;
    auto using gauss_text, summary_text, report_text, reports_text, mix_text, target_text, cluster_text, tracker_text, pf_text, bbox_text.
Qed.

(** Texts that are not JSON. *)
Lemma no_document_start c r : white c = false -> (forall j, ~ first j c) -> forall j, ~ document j (String c r).
Proof.
  intros Hc Hf j (w & t & w' & E & Hw & Ht & _). destruct (text_first _ _ Ht) as (d & u & -> & Hd).
  destruct w as [|x w].
  - cbn in E. injection E as <- _. apply (Hf j Hd).
  - unfold ws in Hw. cbn in Hw, E. injection E as <- _. rewrite Hc in Hw. discriminate.
Qed.
Lemma aabbox_text a b c d j : ~ document j (repr_aabbox show6 a b c d).
Proof. apply no_document_start; [reflexivity|]. intros k. destruct k; cbn; intros H; try discriminate. destruct H; discriminate. Qed.

End Texts.
