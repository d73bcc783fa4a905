(** Races in corrections of reached trackers. *)
From Coq Require Import List Arith NArith Bool Reals Lra Lia Permutation.
Import ListNotations.
From Verif Require Import Res Scalar LapBase RTree RTreeSpec RTreeInst Tracker TrackerSpec TrackerProofs TrackerCluster TrackerMain TrackerHist PropsTracker
  Race RaceProofs Access AccessProofs.
Local Open Scope nat_scope.


Lemma nodup_app {A} (l m : list A) : NoDup (l ++ m) -> NoDup m /\ forall a, In a l -> ~ In a m.
Proof.
  induction l as [|x l IH]; cbn [app]; intros H; [split; auto|]. inversion H as [|? ? Hx Hr]; subst. destruct (IH Hr) as (Hm & Hd).
  split; auto. intros a [<-|Ha]; auto. intros Hin. apply Hx, in_or_app. auto.
Qed.
Lemma concat_pairs {A} (f : cluster -> list A) cls : NoDup (concat (map f cls)) ->
  ForallOrdPairs (fun c d => forall a, In a (f c) -> ~ In a (f d)) cls.
Proof.
  induction cls as [|c cls IH]; cbn [map concat]; intros H; constructor; destruct (nodup_app _ _ H) as (Hm & Hd); auto.
  apply Forall_forall. intros d Hin a Ha Hb. apply (Hd a Ha). apply in_concat. exists (f d). split; auto. apply in_map. auto.
Qed.
Lemma and_pairs {A} (P Q : A -> A -> Prop) l : ForallOrdPairs P l -> ForallOrdPairs Q l -> ForallOrdPairs (fun a b => P a b /\ Q a b) l.
Proof.
  intros HP. induction HP as [|a l Ha HP IH]; intros HQ; constructor; inversion HQ; subst; auto.
  rewrite Forall_forall in *. auto.
Qed.
Lemma id_pairs cls k : map cl_id cls = seq k (length cls) -> ForallOrdPairs (fun c d => cl_id c <> cl_id d) cls.
Proof.
  revert k. induction cls as [|c cls IH]; cbn [map length seq]; intros k E; constructor; injection E; intros E1 E2; eauto.
  apply Forall_forall. intros d Hd. apply (in_map cl_id) in Hd. rewrite E1 in Hd. apply List.in_seq in Hd. lia.
Qed.

Lemma clustering_separate {P Rep} (box : P -> rect (ext R)) rbox all st scan st' (scan' : list (report (Rep := Rep))) cls :
  clustering box rbox all st scan st' scan' cls -> ForallOrdPairs separate cls.
Proof.
  intros H. pose proof (and_pairs _ _ _ (id_pairs _ _ (k_ids _ _ _ _ _ _ _ _ H)) (and_pairs _ _ _
    (concat_pairs _ _ (k_targets_once _ _ _ _ _ _ _ _ H)) (concat_pairs _ _ (k_reports_once _ _ _ _ _ _ _ _ H)))) as X. exact X.
Qed.

Section Correct.
Context {P Rep : Type} (box : P -> rect (ext R)).
Lemma only_gen_races rbox all (st : tracker (P := P)) (scan : list (report (Rep := Rep))) st' scan' cls h found c' x :
  clustering box rbox all st scan st' scan' cls -> reachable (correct_body h found cls) c' -> races x c' -> x = Gen.
Proof.
  intros Hk Hr Hx. destruct (loc_gen x) as [E|N]; auto. exfalso.
  apply (no_races gen 0 _ (src_correct_body h 0 found cls ltac:(unfold ttree; lia))
    (safe_correct_body h found cls (clustering_separate box _ _ _ _ _ _ _ Hk)) c' Hr x N Hx).
Qed.

Lemma two_clusters rbox all (st : tracker (P := P)) (scan : list (report (Rep := Rep))) st' scan' cls a b :
  clustering box rbox all st scan st' scan' cls -> In a all -> In b all -> a <> b ->
  (forall j, ~ gated box rbox (map rp scan) st j a) -> exists c d, In c cls /\ In d cls /\ c <> d /\ In a (cl_targets c) /\ In b (cl_targets d).
Proof.
  intros Hk Ha Hb N Hg. assert (In a (concat (map cl_targets cls)) /\ In b (concat (map cl_targets cls))) as (Ia & Ib).
  { split; apply (k_targets _ _ _ _ _ _ _ _ Hk); auto. }
  apply in_concat in Ia, Ib. destruct Ia as (la & Ia & Ja), Ib as (lb & Ib & Jb). apply in_map_iff in Ia, Ib.
  destruct Ia as (c & <- & Hc), Ib as (d & <- & Hd). exists c, d. repeat split; auto. intros <-.
  destruct (cl_reports c) as [|r rs] eqn:E.
  - destruct (k_lone _ _ _ _ _ _ _ _ Hk c Hc E) as (e & Et & _). rewrite Et in Ja, Jb. simpl in Ja, Jb. intuition congruence.
  - destruct (proj1 (k_gated _ _ _ _ _ _ _ _ Hk c a Hc ltac:(congruence)) Ja) as (j & _ & G). exact (Hg j G).
Qed.
End Correct.

(** A reached tracker with two targets, and a correction without reports that
    sees both. *)
Definition empty_correction (fov : rect (ext R)) : correction (P := R) (Rep := R) :=
  mkCorrection [] fov (fun _ => true) ex_box (fun rs ts => Some (ts, map (fun r => (r, Fin 1%R)) rs)) (1 / 2)%R (fun r => r) 3%R.

Lemma two_targets : exists (st : tracker (P := R)) fov l a b,
  reached R R 3 ex_box ex_cov (5 / 100) 150 (8 / 10) st /\ sane_correction (empty_correction fov) /\
  in_view (empty_correction fov) st = Ok l /\ NoDup l /\ (forall c, In c l -> In c (targets st)) /\ In a l /\ In b l /\ a <> b.
Proof.
  pose proof (consistent_new ex_box) as H0.
  destruct (ex_correct [0%R; 5%R] new_tracker H0) as (st & C1).
  assert (Hs : Forall sane_call [Correct (ex_correction [0%R; 5%R])]) by (constructor; [apply ex_sane_correction|constructor]).
  assert (C : calls (volR 3) ex_box ex_cov (5 / 100) 150 (8 / 10) new_tracker [Correct (ex_correction [0%R; 5%R])] (Ok st)).
  { eapply cl_cons; [apply cs_correct; exact C1|apply cl_nil]. }
  assert (Hc : consistent ex_box st) by exact (calls_ok 3 ltac:(lra) ex_box ex_box_real ex_cov _ _ _ _ _ _ C H0 Hs).
  destruct (correct_births 3 ltac:(lra) ex_box ex_box_real ex_cov (5 / 100) 150 (8 / 10) (ex_correction [0%R; 5%R]) new_tracker st ltac:(lra) H0
      (ex_sane_correction _) (ex_weighted _) C1) as (old & new & ws & rs & El & _ & Hold & Hl & _ & Hsrc & Er & Hp & _).
  assert (Hw : forall w, In w ws -> w = 1%R).
  { intros w Hin. destruct (Hsrc w Hin) as (x & b & c & d & e & E & Hin').
    simpl in E. inversion E; subst. apply in_map_iff in Hin'. destruct Hin' as (r & Ex & _). inversion Ex; auto. }
  assert (Hrs : length rs = 2).
  { destruct ws as [|w [|w' [|? ?]]]; try discriminate. rewrite (Hw w), (Hw w') in Hp by (simpl; auto).
    rewrite (Permutation_length Hp). unfold birth_rs, Rsum. simpl.
    destruct (Rle_dec (5 / 100) (1 + (1 + 0))); [|exfalso; lra].
    destruct (Rle_dec (5 / 100) (1 * (1 / 2) / (1 + (1 + 0)))); auto. exfalso; lra. }
  assert (En : length new = 2) by (apply (f_equal (@length _)) in Er; rewrite !map_length in Er; congruence).
  destruct new as [|(a, t) [|(b, u) [|? ?]]]; try discriminate.
  assert (Ha : In (a, t) (live st)) by (rewrite El; apply in_or_app; simpl; auto).
  assert (Hb : In (b, u) (live st)) by (rewrite El; apply in_or_app; simpl; auto).
  assert (N : a <> b).
  { pose proof (proj1 (proj1 Hc)) as Hn. rewrite <- (live_addrs st (proj1 Hc)), El, map_app in Hn. destruct (nodup_app _ _ Hn) as (Hn' & _).
    cbn in Hn'. inversion Hn' as [|? ? Hx _]; subst. intros ->. apply Hx. simpl. auto. }
  apply (live_In st _ _ (proj1 Hc)) in Ha, Hb.
  set (fov := mkRect (Fin (Rmin (tg_pdf t) (tg_pdf u) - 1)%R) (Fin 0%R) (Fin (Rmax (tg_pdf t) (tg_pdf u) + 1)%R) (Fin 1%R) : rect (ext R)).
  assert (Hsc : sane_correction (empty_correction fov)).
  { split; [repeat split; eexists; reflexivity|]. split; [intros r []|]. exact (proj2 (proj2 (ex_sane_correction []))). }
  destruct (in_view_ok ex_box (empty_correction fov) st Hc (proj1 Hsc)) as (l & Ev & Hn & Hv).
  exists st, fov, l, a, b. split; [exists [Correct (ex_correction [0%R; 5%R])]; auto|]. repeat (split; [solve [auto]|]).
  pose proof (Rmin_l (tg_pdf t) (tg_pdf u)). pose proof (Rmin_r (tg_pdf t) (tg_pdf u)).
  pose proof (Rmax_l (tg_pdf t) (tg_pdf u)). pose proof (Rmax_r (tg_pdf t) (tg_pdf u)).
  split. { intros c Hcl. apply (proj2 (proj1 Hc)). apply Hv in Hcl. destruct Hcl as (v & -> & _). discriminate. }
  split; [|split; [|exact N]]; apply Hv; [exists t|exists u]; (split; [auto|]); (split; [|reflexivity]);
    cbn [empty_correction s_fov]; unfold fov, ex_box; repeat split; cbn; apply le_FF_iff; lra.
Qed.
