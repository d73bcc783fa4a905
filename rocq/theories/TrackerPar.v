(** The parallel cluster updates: every interleaving is safe and leads to the
    same result. *)
From Coq Require Import List Arith NArith Bool Reals Lra Lia Permutation.
Import ListNotations.
From Verif Require Import Res Scalar LapBase RTree RTreeSpec RTreeInst CC Cluster Tracker TrackerSpec TrackerProofs.
Local Open Scope nat_scope.

(** ** Lists *)
Lemma NoDup_app_inv {A} (l1 l2 : list A) : NoDup (l1 ++ l2) ->
  NoDup l1 /\ NoDup l2 /\ forall x, In x l1 -> In x l2 -> False.
Proof.
  induction l1 as [|x l1 IH]; simpl; intros H.
  - split; [constructor|split; auto].
  - inversion H as [|? ? Hx Hn]; subst. destruct (IH Hn) as (H1 & H2 & H3). split; [|split; auto].
    + constructor; auto. intro. apply Hx. apply in_or_app; auto.
    + intros y [<-|Hy] Hy2; [apply Hx; apply in_or_app; auto|eauto].
Qed.

Lemma nodup_part {A B} (f : A -> list B) cls k c : NoDup (concat (map f cls)) -> nth_error cls k = Some c -> NoDup (f c).
Proof.
  revert k. induction cls as [|c0 cls IH]; intros [|k] Hn E; try discriminate; simpl in *;
    apply NoDup_app_inv in Hn; destruct Hn as (H1 & H2 & _).
  - congruence.
  - eauto.
Qed.

Lemma part_in {A B} (f : A -> list B) cls k c x : nth_error cls k = Some c -> In x (f c) -> In x (concat (map f cls)).
Proof. intros E Hx. apply in_concat. exists (f c). split; auto. apply in_map. eapply nth_error_In; eauto. Qed.

Lemma in_part {A B} (f : A -> list B) cls x : In x (concat (map f cls)) -> exists k c, nth_error cls k = Some c /\ In x (f c).
Proof.
  intros H. apply in_concat in H. destruct H as (l & Hl & Hx). apply in_map_iff in Hl. destruct Hl as (c & <- & Hc).
  apply In_nth_error in Hc. destruct Hc as (k & Hk). eauto.
Qed.

Lemma part_unique {A B} (f : A -> list B) cls k k' c c' x : NoDup (concat (map f cls)) ->
  nth_error cls k = Some c -> nth_error cls k' = Some c' -> In x (f c) -> In x (f c') -> k = k'.
Proof.
  revert k k'. induction cls as [|c0 cls IH]; intros [|k] [|k'] Hn E E' Hx Hx'; try discriminate; simpl in *; auto;
    apply NoDup_app_inv in Hn; destruct Hn as (H1 & H2 & H3).
  - inversion E; subst. exfalso. eapply H3; [exact Hx|]. eapply part_in; eauto.
  - inversion E'; subst. exfalso. eapply H3; [exact Hx'|]. eapply part_in; eauto.
  - f_equal. eapply IH; eauto.
Qed.

(** A function with given values on disjoint lists. *)
Fixpoint assoc {V} (ks : list nat) (vs : list V) (a : nat) : option V :=
  match ks, vs with
  | k :: ks, v :: vs => if a =? k then Some v else assoc ks vs a
  | _, _ => None
  end.

Lemma assoc_map {V} ks : forall (vs : list V) (g : nat -> option V), NoDup ks -> length ks = length vs ->
  map (fun a => match assoc ks vs a with Some v => Some v | None => g a end) ks = map Some vs.
Proof.
  induction ks as [|k ks IH]; intros [|v vs] g Hn Hl; simpl in *; try discriminate; auto.
  inversion Hn as [|? ? Hk Hn']; subst. rewrite Nat.eqb_refl. f_equal. rewrite <- (IH vs g) by auto.
  apply map_ext_in. intros a Ha. destruct (Nat.eqb_spec a k); [subst; contradiction|auto].
Qed.

Lemma assoc_none {V} ks : forall (vs : list V) a, ~ In a ks -> assoc ks vs a = None.
Proof.
  induction ks as [|k ks IH]; intros [|v vs] a H; simpl in *; auto.
  destruct (Nat.eqb_spec a k); [subst; exfalso; auto|auto].
Qed.

Lemma assign {V C} (fk : C -> list nat) (fv : C -> list V) (d : nat -> option V) cls :
  NoDup (concat (map fk cls)) -> (forall c, In c cls -> length (fk c) = length (fv c)) ->
  exists f : nat -> option V,
    (forall c, In c cls -> map f (fk c) = map Some (fv c)) /\
    (forall a, ~ In a (concat (map fk cls)) -> f a = d a).
Proof.
  induction cls as [|c cls IH]; intros Hn Hl.
  - exists d. split; auto. intros c [].
  - simpl in Hn. apply NoDup_app_inv in Hn. destruct Hn as (H1 & H2 & H3).
    destruct IH as (f & Hf & Hd); auto. { intros; apply Hl; simpl; auto. }
    exists (fun a => match assoc (fk c) (fv c) a with Some v => Some v | None => f a end). split.
    + intros c' [<-|Hc'].
      * apply assoc_map; auto. apply Hl; simpl; auto.
      * rewrite <- (Hf c' Hc'). apply map_ext_in. intros a Ha. rewrite assoc_none; auto.
        intro. eapply H3; eauto. apply in_concat. exists (fk c'). split; auto. apply in_map; auto.
    + intros a Ha. simpl in Ha. rewrite assoc_none by (intro; apply Ha; apply in_or_app; auto).
      apply Hd. intro; apply Ha; apply in_or_app; auto.
Qed.

Lemma map_res_ok {A B} (f : A -> res B) (g : A -> B) l : (forall a, In a l -> f a = Ok (g a)) -> map_res f l = Ok (map g l).
Proof.
  intros H. induction l as [|a l IH]; simpl; auto. rewrite H by (simpl; auto). cbn [bind].
  rewrite IH by (intros; apply H; simpl; auto). reflexivity.
Qed.

Lemma nth_error_upd {A} (l : list A) i x j : nth_error (upd l i x) j =
  if j =? i then (match nth_error l j with Some _ => Some x | None => None end) else nth_error l j.
Proof.
  revert i j. induction l as [|y l IH]; intros [|i] [|j]; simpl; auto.
  destruct (j =? i); auto.
Qed.

Section Par.
Context {P Rep : Type}.
Variable unit : R.
Hypothesis unit_pos : (0 < unit)%R.
Variable box : P -> rect (ext R).
Hypothesis box_real : forall p, real_box (box p).
Variable covnorm : P -> ext R.
Variables r_lim cov_lim rB_max : R.

Notation tracker := (tracker (P := P)).
Notation target := (target (P := P)).
Notation report := (report (Rep := Rep)).
Notation vol := (volR unit).
Notation kept := (kept covnorm r_lim cov_lim).
Notation phased := (phased box covnorm r_lim cov_lim).
Notation exec := (exec vol box covnorm r_lim cov_lim).
Notation par_run := (par_run vol box covnorm r_lim cov_lim).

Variable s : correction (P := P) (Rep := Rep).
Hypothesis s_sane : sane_correction s.
Variable st0 : tracker.
Hypothesis st0_ok : consistent box st0.
Variable scan0 : list report.
Variable cls : list cluster.
Hypothesis cls_targets : NoDup (concat (map cl_targets cls)).
Hypothesis cls_live : forall a, In a (concat (map cl_targets cls)) -> In a (targets st0).
Hypothesis cls_reports : NoDup (concat (map cl_reports cls)).
Hypothesis cls_scan : forall j, In j (concat (map cl_reports cls)) -> j < length scan0.

(** Inputs and outcome of the numerical part of each cluster. *)
Definition old_targets (c : cluster) : list target :=
  flat_map (fun a => match heap st0 a with Some t => [t] | None => [] end) (cl_targets c).
Definition old_reports (c : cluster) : list Rep :=
  flat_map (fun j => match nth_error scan0 j with Some r => [rp r] | None => [] end) (cl_reports c).
Definition outcome (c : cluster) := s_update s (old_reports c) (old_targets c).

Lemma sublive_length l : (forall a, In a l -> In a (targets st0)) ->
  length (flat_map (fun a => match heap st0 a with Some t => [t] | None => [] end) l) = length l /\
  map Some (flat_map (fun a => match heap st0 a with Some t => [t] | None => [] end) l) = map (heap st0) l.
Proof.
  intros H. induction l as [|a l IH]; simpl; auto. destruct IH as [IH1 IH2]; [intros; apply H; simpl; auto|].
  destruct (heap st0 a) eqn:E.
  - simpl. split; congruence.
  - exfalso. destruct st0_ok as ((_ & Hl) & _). specialize (H a ltac:(simpl; auto)). apply Hl in H. congruence.
Qed.

Lemma subscan_length l : (forall j, In j l -> j < length scan0) ->
  length (flat_map (fun j => match nth_error scan0 j with Some r => [rp r] | None => [] end) l) = length l.
Proof.
  intros H. induction l as [|a l IH]; simpl; auto. rewrite app_length, IH by (intros; apply H; simpl; auto).
  specialize (H a ltac:(simpl; auto)). apply nth_error_Some in H. destruct (nth_error scan0 a); simpl; congruence.
Qed.

Definition new_targets (c : cluster) : list target :=
  match outcome c with Some (ts', _) => ts' | None => old_targets c end.
Definition new_reports (c : cluster) : list (Rep * ext R) :=
  match outcome c with Some (_, rs') => rs' | None => map (fun r => (r, NaN)) (old_reports c) end.

Lemma cl_live c : In c cls -> forall a, In a (cl_targets c) -> In a (targets st0).
Proof. intros Hc a Ha. apply cls_live. apply in_concat. exists (cl_targets c). split; auto. apply in_map; auto. Qed.
Lemma cl_scan c : In c cls -> forall a, In a (cl_reports c) -> a < length scan0.
Proof. intros Hc a Ha. apply cls_scan. apply in_concat. exists (cl_reports c). split; auto. apply in_map; auto. Qed.

Lemma new_targets_length c : In c cls -> length (cl_targets c) = length (new_targets c).
Proof.
  intros Hc. unfold new_targets. destruct (sublive_length (cl_targets c) (cl_live c Hc)) as [E _].
  destruct (outcome c) as [[ts' rs']|] eqn:Eo; [|symmetry; exact E].
  destruct s_sane as (_ & _ & H). destruct (H _ _ _ _ Eo) as [Hid _].
  rewrite <- (map_length tg_id ts'), Hid, map_length. symmetry; exact E.
Qed.
Lemma new_reports_length c : In c cls -> length (cl_reports c) = length (new_reports c).
Proof.
  intros Hc. unfold new_reports. pose proof (subscan_length (cl_reports c) (cl_scan c Hc)) as E.
  destruct (outcome c) as [[ts' rs']|] eqn:Eo; [|rewrite map_length; symmetry; exact E].
  destruct s_sane as (_ & _ & H). destruct (H _ _ _ _ Eo) as [_ Hid]. rewrite Hid. symmetry; exact E.
Qed.

Section Values.
(** The new values of targets and reports. *)
Variable newt : nat -> option target.
Variable newr : nat -> option (Rep * ext R).
Hypothesis newt_spec : forall c, In c cls -> map newt (cl_targets c) = map Some (new_targets c).
Hypothesis newt_out : forall a, ~ In a (concat (map cl_targets cls)) -> newt a = heap st0 a.
Hypothesis newr_spec : forall c, In c cls -> map newr (cl_reports c) = map Some (new_reports c).

Notation phased0 := (phased (heap st0) (targets st0) (next_id st0) newt).

Lemma newt_some a : In a (targets st0) -> newt a <> None.
Proof.
  intros Ha. destruct (in_dec Nat.eq_dec a (concat (map cl_targets cls))) as [Hin|Hn].
  - apply in_part in Hin. destruct Hin as (k & c & Hk & Hac). apply nth_error_In in Hk. specialize (newt_spec c Hk).
    assert (Hm : In (newt a) (map newt (cl_targets c))) by (apply in_map; auto). rewrite newt_spec in Hm.
    apply in_map_iff in Hm. destruct Hm as (t & E & _). congruence.
  - rewrite newt_out by auto. destruct st0_ok as ((_ & Hl) & _). apply Hl. auto.
Qed.

Definition report_at (pr : nat -> bool) (j : nat) : option report :=
  match nth_error scan0 j with
  | None => None
  | Some r => if pr j then match newr j with Some (d, x) => Some (mkReport d x (rp_cid r)) | None => Some r end
              else Some r
  end.
Definition scan_at (pr : nat -> bool) (scan : list report) : Prop :=
  forall j, nth_error scan j = report_at pr j.

Record inv (cf : conf (P := P) (Rep := Rep)) (ph : nat -> nat) (pr : nat -> bool) : Prop := mkInv {
  i_st : phased0 ph (c_st cf);
  i_scan : scan_at pr (c_scan cf);
  i_len : length (c_pcs cf) = length cls;
  i_pc : forall k c pc, nth_error cls k = Some c -> nth_error (c_pcs cf) k = Some pc ->
    pc <= 3 /\ (2 <= pc -> outcome c <> None) /\ (forall a, In a (cl_targets c) -> ph a = pc) /\
    (forall j, In j (cl_reports c) -> pr j = (2 <=? pc));
  i_out : forall a, ~ In a (concat (map cl_targets cls)) -> ph a = 0;
  i_outr : forall j, ~ In j (concat (map cl_reports cls)) -> pr j = false }.

Lemma deref_list ph st c : phased0 ph st -> In c cls -> (forall a, In a (cl_targets c) -> ph a = 1) ->
  map_res (deref st) (cl_targets c) = Ok (old_targets c).
Proof.
  intros Hp Hc H1. unfold old_targets. pose proof (cl_live c Hc) as Hl. revert H1 Hl.
  induction (cl_targets c) as [|a l IH]; intros H1 Hl; simpl; auto.
  unfold deref at 1. rewrite (ph_heap _ _ _ _ _ _ _ _ _ _ Hp a). unfold hs. rewrite H1 by (simpl; auto).
  destruct st0_ok as ((_ & Hlive) & _). specialize (Hl a ltac:(simpl; auto)) as Ha. apply Hlive in Ha.
  destruct (heap st0 a) eqn:E; [|congruence]. cbn [bind]. rewrite IH; auto.
  - intros; apply H1; simpl; auto.
  - intros; apply Hl; simpl; auto.
Qed.

Lemma get_list pr scan c : scan_at pr scan -> In c cls -> (forall j, In j (cl_reports c) -> pr j = false) ->
  exists rs, map_res (get scan) (cl_reports c) = Ok rs /\ map rp rs = old_reports c.
Proof.
  intros Hp Hc H1. unfold old_reports. pose proof (cl_scan c Hc) as Hl. revert H1 Hl.
  induction (cl_reports c) as [|a l IH]; intros H1 Hl; simpl.
  - exists []. auto.
  - unfold get at 1. rewrite (Hp a). unfold report_at. rewrite H1 by (simpl; auto).
    specialize (Hl a ltac:(simpl; auto)) as Ha. apply nth_error_Some in Ha.
    destruct (nth_error scan0 a) as [r|] eqn:E; [|congruence]. cbn [bind].
    destruct IH as (rs & E1 & E2). { intros; apply H1; simpl; auto. } { intros; apply Hl; simpl; auto. }
    rewrite E1. cbn [bind]. exists (r :: rs). simpl. split; auto. f_equal. exact E2.
Qed.

Lemma store_targets_new : forall (l : list addr) ts st, map newt l = map Some ts ->
  for_each store_target (combine l ts) st = for_each (write_new newt : addr -> tracker -> res tracker) l st.
Proof.
  induction l as [|a l IH]; intros [|t ts] st E; simpl in *; try discriminate; auto.
  inversion E as [[E1 E2]]. unfold store_target at 1, write_new at 1. cbn [fst snd]. rewrite E1.
  destruct (write st a t); cbn [bind]; auto.
Qed.

Lemma store_reports_new : forall l rs pr scan, map newr l = map Some rs -> scan_at pr scan ->
  (forall j, In j l -> pr j = false /\ j < length scan0) -> NoDup l ->
  exists scan', for_each store_report (combine l rs) scan = Ok scan' /\ scan_at (setl pr l true) scan'.
Proof.
  induction l as [|j l IH]; intros [|r rs] pr scan E Hs Hl Hn; simpl in *; try discriminate.
  - exists scan. split; auto.
  - inversion E as [[E1 E2]]. inversion Hn as [|? ? Hj Hn']; subst.
    destruct (Hl j ltac:(auto)) as [Hpr Hj0]. pose proof (Hs j) as Hsj. unfold report_at in Hsj. rewrite Hpr in Hsj.
    apply nth_error_Some in Hj0. destruct (nth_error scan0 j) as [r0|] eqn:E0; [|congruence].
    unfold store_report at 1. unfold get. cbn [fst snd]. rewrite Hsj. cbn [bind].
    assert (Hlen : j < length scan) by (apply nth_error_Some; congruence).
    unfold set. rewrite (proj2 (Nat.ltb_lt _ _) Hlen). cbn [bind].
    destruct (IH rs (setf pr j true) (upd scan j (mkReport (fst r) (snd r) (rp_cid r0)))) as (scan' & Es & Hs'); auto.
    + intros i. rewrite nth_error_upd. unfold report_at. destruct (Nat.eqb_spec i j) as [->|Hne].
      * rewrite Hsj, E0, setf_eq, E1. destruct r; auto.
      * rewrite setf_neq by auto. apply Hs.
    + intros i Hi. rewrite setf_neq by (intros ->; contradiction). apply Hl; auto.
    + exists scan'. split; [exact Es|]. intros i. rewrite (Hs' i). unfold report_at.
      destruct (nth_error scan0 i); auto.
      replace (setl pr (j :: l) true i) with (setl (setf pr j true) l true i); auto.
      unfold setl, setf. simpl. destruct (Nat.eqb_spec i j), (existsb (Nat.eqb i) l); auto.
Qed.

Lemma exec_step cf ph pr k : inv cf ph pr -> ready cf k ->
  (exists cf' ph' pr', exec s cls k cf = Ok cf' /\ inv cf' ph' pr' /\ list_sum (c_pcs cf') = S (list_sum (c_pcs cf))) \/
  (exec s cls k cf = OutOfFuel /\ exists c, In c cls /\ outcome c = None).
Proof.
  intros [Hst Hscan Hlen Hpc Hout Houtr] Hr. unfold ready in Hr.
  assert (Hk : k < length (c_pcs cf)).
  { destruct (Nat.lt_ge_cases k (length (c_pcs cf))); auto. rewrite nth_overflow in Hr; lia. }
  destruct (nth_error (c_pcs cf) k) as [pc|] eqn:Ep; [|apply nth_error_Some in Hk; congruence].
  rewrite (nth_error_nth _ _ _ Ep) in Hr.
  destruct (nth_error cls k) as [c|] eqn:Ec. 2:{ apply nth_error_None in Ec. lia. }
  destruct (Hpc k c pc Ec Ep) as (Hle & Hsome & Hph & Hprs).
  pose proof (nth_error_In _ _ Ec) as Hin.
  pose proof (nodup_part _ _ _ _ cls_targets Ec) as Hnd. pose proof (nodup_part _ _ _ _ cls_reports Ec) as Hndr.
  unfold Tracker.exec, get. rewrite Ec, Ep. cbn [bind].
  (* the invariant after a section that moves the phases *)
  assert (Hnext : forall st' scan' ph' pr', phased0 ph' st' -> scan_at pr' scan' ->
    (2 <= S pc -> outcome c <> None) ->
    (forall a, In a (cl_targets c) -> ph' a = S pc) -> (forall a, ~ In a (cl_targets c) -> ph' a = ph a) ->
    (forall j, In j (cl_reports c) -> pr' j = (2 <=? S pc)) -> (forall j, ~ In j (cl_reports c) -> pr' j = pr j) ->
    inv (mkConf st' scan' (upd (c_pcs cf) k (S pc))) ph' pr').
  { intros st' scan' ph' pr' H1 H2 H3 H4 H5 H6 H7. split; cbn [c_st c_scan c_pcs]; auto.
    - rewrite upd_length. auto.
    - intros k' c' pc' Ec' Ep'. rewrite nth_error_upd in Ep'. destruct (Nat.eqb_spec k' k) as [->|Hne].
      + rewrite Ep in Ep'. inversion Ep'; subst. rewrite Ec in Ec'. inversion Ec'; subst. repeat split; auto.
      + destruct (Hpc k' c' pc' Ec' Ep') as (G1 & G2 & G3 & G4). repeat split; auto.
        * intros a Ha. rewrite H5; auto. intro Ha'. apply Hne. eapply (part_unique cl_targets); eauto.
        * intros j Hj. rewrite H7; auto. intro Hj'. apply Hne. eapply (part_unique cl_reports); eauto.
    - intros a Ha. rewrite H5; auto. intro. apply Ha. eapply part_in; eauto.
    - intros j Hj. rewrite H7; auto. intro. apply Hj. eapply part_in; eauto. }
  assert (Hsum : forall st' scan', list_sum (c_pcs (mkConf (P := P) (Rep := Rep) st' scan' (upd (c_pcs cf) k (S pc)))) = S (list_sum (c_pcs cf))).
  { intros. cbn [c_pcs]. clear - Ep. revert k Ep. induction (c_pcs cf) as [|x l IH]; intros [|k] E; simpl in *; try discriminate.
    - inversion E; subst. lia.
    - rewrite IH by auto. lia. }
  destruct st0_ok as ((Hn0 & Hl0) & _).
  destruct pc as [|[|[|pc]]]; [| | |lia]; unfold section.
  - (* section 1 *)
    left. unfold section1.
    destruct (phased_list box covnorm r_lim cov_lim (heap st0) (targets st0) (next_id st0) newt
                (index_remove vol box) 0 1) with (l := cl_targets c) (ph := ph) (st := c_st cf) as (st' & E' & Hp'); auto.
    { intros. apply step_remove; auto. }
    { intros a Ha. split; auto. eapply cl_live; eauto. }
    rewrite E'. cbn [bind]. eexists. exists (setl ph (cl_targets c) 1), pr. split; [reflexivity|]. split; [|apply Hsum].
    apply Hnext; auto.
    + lia.
    + intros. apply setl_in; auto.
    + intros. apply setl_notin; auto.
  - (* section 2 *)
    unfold section2. rewrite (deref_list ph _ c Hst Hin Hph). cbn [bind].
    destruct (get_list pr _ c Hscan Hin Hprs) as (rs & Er & Erp). rewrite Er. cbn [bind]. rewrite Erp.
    fold (outcome c). destruct (outcome c) as [[ts' rs']|] eqn:Eo; [|right; split; auto; eauto].
    left.
    assert (Et : new_targets c = ts') by (unfold new_targets; rewrite Eo; auto).
    assert (Err : new_reports c = rs') by (unfold new_reports; rewrite Eo; auto).
    rewrite store_targets_new by (rewrite <- Et; auto).
    destruct (phased_list box covnorm r_lim cov_lim (heap st0) (targets st0) (next_id st0) newt
                (write_new newt) 1 2) with (l := cl_targets c) (ph := ph) (st := c_st cf) as (st' & E' & Hp'); auto.
    { intros. apply step_write_new; auto. apply newt_some. }
    { intros a Ha. split; auto. eapply cl_live; eauto. }
    rewrite E'. cbn [bind].
    destruct (store_reports_new (cl_reports c) rs' pr (c_scan cf)) as (scan' & Es & Hs'); auto.
    { rewrite <- Err. auto. }
    { intros j Hj. split; [apply (Hprs j Hj)|eapply cl_scan; eauto]. }
    rewrite Es. cbn [bind]. eexists. exists (setl ph (cl_targets c) 2), (setl pr (cl_reports c) true).
    split; [reflexivity|]. split; [|apply Hsum].
    apply Hnext; auto.
    + congruence.
    + intros. apply setl_in; auto.
    + intros. apply setl_notin; auto.
    + intros. apply setl_in; auto.
    + intros. apply setl_notin; auto.
  - (* section 3 *)
    left. unfold section3.
    destruct (phased_list box covnorm r_lim cov_lim (heap st0) (targets st0) (next_id st0) newt
                (restore vol box covnorm r_lim cov_lim) 2 3) with (l := cl_targets c) (ph := ph) (st := c_st cf) as (st' & E' & Hp'); auto.
    { intros. apply step_restore; auto. apply newt_some. }
    { intros a Ha. split; auto. eapply cl_live; eauto. }
    rewrite E'. cbn [bind]. eexists. exists (setl ph (cl_targets c) 3), pr. split; [reflexivity|]. split; [|apply Hsum].
    apply Hnext; auto.
    + intros. apply setl_in; auto.
    + intros. apply setl_notin; auto.
Qed.

(** The final state. *)
Definition ph_final (a : nat) : nat := if existsb (Nat.eqb a) (concat (map cl_targets cls)) then 3 else 0.
Definition pr_final (j : nat) : bool := existsb (Nat.eqb j) (concat (map cl_reports cls)).

Definition final (cf : conf) : Prop :=
  phased0 ph_final (c_st cf) /\ scan_at pr_final (c_scan cf) /\ forall c, In c cls -> outcome c <> None.

Lemma inv_final cf ph pr : inv cf ph pr -> (forall k, ~ ready cf k) -> final cf.
Proof.
  intros [Hst Hscan Hlen Hpc Hout Houtr] Hd.
  assert (H3 : forall k c, nth_error cls k = Some c -> nth_error (c_pcs cf) k = Some 3).
  { intros k c Ec. assert (Hk : k < length (c_pcs cf)) by (rewrite Hlen; apply nth_error_Some; congruence).
    destruct (nth_error (c_pcs cf) k) as [pc|] eqn:Ep; [|apply nth_error_Some in Hk; congruence].
    destruct (Hpc k c pc Ec Ep) as (Hle & _). specialize (Hd k). unfold ready in Hd.
    rewrite (nth_error_nth _ _ _ Ep) in Hd. f_equal. lia. }
  split; [|split].
  - apply (phased_ext box covnorm r_lim cov_lim _ _ _ _ ph); auto. intros a. unfold ph_final.
    destruct (existsb (Nat.eqb a) (concat (map cl_targets cls))) eqn:E.
    + apply existsb_nat in E. apply in_part in E. destruct E as (k & c & Ec & Ha).
      apply (Hpc k c 3 Ec (H3 k c Ec)); auto.
    + apply Hout. intro H. apply existsb_nat in H. congruence.
  - intros j. rewrite (Hscan j). unfold report_at. replace (pr_final j) with (pr j); auto. unfold pr_final.
    destruct (existsb (Nat.eqb j) (concat (map cl_reports cls))) eqn:E.
    + apply existsb_nat in E. apply in_part in E. destruct E as (k & c & Ec & Ha).
      apply (Hpc k c 3 Ec (H3 k c Ec)); auto.
    + apply Houtr. intro H. apply existsb_nat in H. congruence.
  - intros c Hc. apply In_nth_error in Hc. destruct Hc as (k & Ec).
    apply (Hpc k c 3 Ec (H3 k c Ec)); auto.
Qed.

Lemma inv_start : inv (mkConf st0 scan0 (repeat 0 (length cls))) (fun _ => 0) (fun _ => false).
Proof.
  split; cbn [c_st c_scan c_pcs]; auto.
  - apply phased_start; auto.
  - intros j. unfold report_at. destruct (nth_error scan0 j); auto.
  - apply repeat_length.
  - intros k c pc Ec Ep. apply nth_error_In in Ep. apply repeat_spec in Ep. subst. repeat split; auto; lia.
Qed.

Lemma par_outcome cf o : par_run s cls cf o -> forall ph pr, inv cf ph pr ->
  match o with
  | Ok cf' => final cf'
  | UB => False
  | OutOfFuel => exists c, In c cls /\ outcome c = None
  end.
Proof.
  induction 1 as [cf Hd|cf k cf' o Hr He Hrun IH|cf k Hr He|cf k Hr He]; intros ph pr Hi.
  - eapply inv_final; eauto.
  - destruct (exec_step cf ph pr k Hi Hr) as [(cf2 & ph2 & pr2 & E & Hi2 & _)|(E & _)]; [|congruence].
    rewrite E in He. inversion He; subst. eapply IH; eauto.
  - destruct (exec_step cf ph pr k Hi Hr) as [(cf2 & ph2 & pr2 & E & _)|(E & _)]; congruence.
  - destruct (exec_step cf ph pr k Hi Hr) as [(cf2 & ph2 & pr2 & E & _)|(E & H)]; [congruence|auto].
Qed.

(** Every schedule can be completed. *)
Lemma par_exists n : forall cf ph pr, inv cf ph pr -> 3 * length cls <= n + list_sum (c_pcs cf) -> exists o, par_run s cls cf o.
Proof.
  induction n as [|n IH]; intros cf ph pr Hi Hn.
  - exists (Ok cf). constructor. intros k Hr. destruct (exec_step cf ph pr k Hi Hr) as [(cf2 & ph2 & pr2 & E & Hi2 & Hs)|(E & _)].
    + assert (Hb : forall l, (forall x, In x l -> x <= 3) -> list_sum l <= 3 * length l).
      { induction l as [|x l IHl]; simpl; intros Hx; [lia|]. specialize (Hx x ltac:(auto)) as Hx0.
        specialize (IHl ltac:(intros; apply Hx; auto)). lia. }
      assert (H3 : list_sum (c_pcs cf2) <= 3 * length (c_pcs cf2)).
      { apply Hb. intros x Hx. apply In_nth_error in Hx. destruct Hx as (k' & Ek). 
        assert (Hlt : k' < length cls) by (rewrite <- (i_len _ _ _ Hi2); apply nth_error_Some; congruence).
        apply nth_error_Some in Hlt. destruct (nth_error cls k') as [c|] eqn:Ec; [|congruence].
        apply (i_pc _ _ _ Hi2 k' c x Ec Ek). }
      rewrite (i_len _ _ _ Hi2) in H3. lia.
    + assert (Hk : list_sum (c_pcs cf) + 1 <= 3 * length (c_pcs cf)); [|rewrite (i_len _ _ _ Hi) in Hk; lia].
      assert (Hb : forall x, In x (c_pcs cf) -> x <= 3).
      { intros x Hx. apply In_nth_error in Hx. destruct Hx as (k' & Ek). 
        assert (Hlt : k' < length cls) by (rewrite <- (i_len _ _ _ Hi); apply nth_error_Some; congruence).
        apply nth_error_Some in Hlt. destruct (nth_error cls k') as [c|] eqn:Ec; [|congruence].
        apply (i_pc _ _ _ Hi k' c x Ec Ek). }
      unfold ready in Hr. clear - Hb Hr. revert k Hr.
      induction (c_pcs cf) as [|x l IHl]; intros [|k] Hr; simpl in *; try lia.
      * assert (forall l, (forall x, In x l -> x <= 3) -> list_sum l <= 3 * length l) as Hb'.
        { clear. induction l as [|x l IHl]; simpl; intros Hx; [lia|]. specialize (Hx x ltac:(auto)) as Hx0.
          specialize (IHl ltac:(intros; apply Hx; auto)). lia. }
        specialize (Hb' l ltac:(auto)). lia.
      * specialize (IHl ltac:(auto) k Hr). specialize (Hb x ltac:(auto)). lia.
  - destruct (existsb (fun x => x <? 3) (c_pcs cf)) eqn:Ex.
    + apply existsb_exists in Ex. destruct Ex as (x & Hx & Hlt). apply Nat.ltb_lt in Hlt.
      apply In_nth_error in Hx. destruct Hx as (k & Ek).
      assert (Hr : ready cf k) by (unfold ready; rewrite (nth_error_nth _ _ _ Ek); auto).
      destruct (exec_step cf ph pr k Hi Hr) as [(cf2 & ph2 & pr2 & E & Hi2 & Hs)|(E & _)].
      * destruct (IH cf2 ph2 pr2 Hi2) as (o & Ho); [lia|]. exists o. eapply pr_step; eauto.
      * exists OutOfFuel. eapply pr_end; eauto.
    + exists (Ok cf). constructor. intros k Hr. unfold ready in Hr.
      destruct (Nat.lt_ge_cases k (length (c_pcs cf))) as [Hk|Hk]; [|rewrite nth_overflow in Hr; lia].
      assert (existsb (fun x => x <? 3) (c_pcs cf) = true); [|congruence].
      apply existsb_exists. exists (nth k (c_pcs cf) 3). split; [apply nth_In; auto|apply Nat.ltb_lt; auto].
Qed.
End Values.

Lemma values_exist : exists newt newr,
  (forall c, In c cls -> map newt (cl_targets c) = map Some (new_targets c)) /\
  (forall a, ~ In a (concat (map cl_targets cls)) -> newt a = heap st0 a) /\
  (forall c, In c cls -> map newr (cl_reports c) = map Some (new_reports c)).
Proof.
  destruct (assign cl_targets new_targets (heap st0) cls cls_targets new_targets_length) as (newt & H1 & H2).
  destruct (assign cl_reports new_reports (fun _ => None) cls cls_reports new_reports_length) as (newr & H3 & H4).
  exists newt, newr. auto.
Qed.
End Par.
