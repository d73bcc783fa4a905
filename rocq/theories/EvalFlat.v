(** Evaluations of a tracker with Gaussian mixtures in coordinates without
    projection error: the index stays right. *)
From Coq Require Import List Arith NArith ZArith Bool Reals Lra Lia Permutation.
Import ListNotations.
From Verif Require Import Res Scalar LapBase RTree RTreeSpec RTreeInst CC Murty MurtyMain Cluster ClusterSpec ClusterMain GM GMSpec GMProofs
  Tracker TrackerSpec TrackerProofs TrackerCluster TrackerMain TrackerHist TrackerOps TrackerOpsSpec TrackerOpsProofs TrackerOpsMain
  Metric Eval EvalSpec EvalProofs EvalMain.
Local Open Scope nat_scope.

Section Flat.
Context {G BB Rep : Type}.
Variable op : ops G BB Rep.
Variable pm : params.
Notation pdf := (pdf (G := G) (BB := BB)).
Notation target := (target (P := pdf)).
Notation tracker := (tracker (P := pdf)).
Notation call := (call (P := pdf) (Rep := Rep)).
Variable expf : R -> R.
Variable pick : nat -> list (mstate (T := ext R)) -> nat.
Variable sortf : list (comp (G := G)) -> list (comp (G := G)).
Hypothesis Hop : sound_ops op.
Hypothesis Hsort : valid_sort sortf.
Hypothesis Hpick : valid_pick pick.
Hypothesis Hexp : forall N ts, no_underflow expf N ts.
Hypothesis Htscale : (0 < tscale pm)%R.
Hypothesis Hrlim : (0 < r_lim pm)%R.
Hypothesis HrB : (0 <= rB_max pm <= 1)%R.
Variable unit : R.
Hypothesis unit_pos : (0 < unit)%R.
Variable B : list (comp (G := G)) -> aabb.
Hypothesis Hback : forall o g, g_global op o (g_local op o g) = g.
Hypothesis Hboxes : forall o c b, local_aabbox (g_x0 op) (g_x1 op) (g_box op) c = Some b -> llaabbox op o b = B (gm_linear (g_global op o) c).

Definition boxed (r : ext R) (p : pdf) : Prop := strong r p /\ p_aabb p = B (p_c p).

Lemma global_boxed (p : pdf) : p_c (pdf_global op p) <> [] -> p_aabb (pdf_global op p) = B (p_c (pdf_global op p)).
Proof.
  intros H. unfold pdf_global in *. cbn [p_c p_aabb] in *. destruct (p_c p) as [|g c] eqn:E; [contradiction H; reflexivity|].
  destruct (local_aabbox _ _ _ (g :: c)) as [b|] eqn:Eb; [|discriminate]. apply Hboxes. auto.
Qed.

Lemma density_nonempty (c : list (comp (G := G))) : density c -> c <> [].
Proof. intros (_ & H & _) ->. simpl in H. lra. Qed.

Lemma boxed_frame o x (p : pdf) : boxed x p -> boxed x (pdf_global op (pdf_local op o p)) /\ p_box (pdf_global op (pdf_local op o p)) = p_box p.
Proof.
  intros ((Hx & Hd) & Ha). set (p' := pdf_global op (pdf_local op o p)).
  assert (Ec : p_c p' = p_c p).
  { unfold p', pdf_global, pdf_local, gm_linear. cbn [p_c p_origin]. rewrite map_map. etransitivity; [|apply map_id]. apply map_ext. intros (w, g). cbn. rewrite Hback. reflexivity. }
  assert (Ea : p_aabb p' = p_aabb p). { rewrite Ha, <- Ec. apply global_boxed. fold p'. rewrite Ec. apply density_nonempty. auto. }
  split; [|unfold p_box; rewrite Ea; reflexivity]. split; [split; auto; rewrite Ec; auto|]. rewrite Ea, Ec. auto.
Qed.

Lemma cluster_update_global s fuel rs (ts : list target) ts' rs' : cluster_update op pm expf pick sortf s fuel rs ts = Some (ts', rs') ->
  forall t, In t ts' -> exists p, tg_pdf t = pdf_global op p.
Proof.
  unfold cluster_update. destruct (30 <? length ts); [discriminate|].
  destruct (all_some (map _ _)) as [tins|]; [|discriminate].
  match goal with |- context [Cluster.correct ?a ?b ?c ?d ?e ?f ?g] => destruct (Cluster.correct a b c d e f g) as [out| |]; try discriminate end.
  match goal with |- match ?x with _ => _ end = _ -> _ => destruct x as [ts2|]; [|discriminate] end.
  intros H. inversion H; subst ts' rs'. intros t Ht. apply in_map_iff in Ht. destruct Ht as (u & <- & _). cbn. eauto.
Qed.

Lemma keeps_boxed n (c : call) : (cw_lim pm <= 1)%R -> (1 / 100000000 * INR (200 * (n + 1)) < r_lim pm)%R ->
  request op pm expf pick sortf n c -> keeps (p_norm op) (r_lim pm) (cov_lim pm) boxed c.
Proof.
  intros Hcw Hn Hr. pose proof (keeps_strong op pm expf pick sortf Hop Hsort Hpick Hexp Htscale Hrlim n c Hcw Hn Hr) as Hk.
  destruct Hr as [m time last Hp Hl|s fuel scan time bb Hs Hsc].
  - intros a t (Hst & _) Hfit. specialize (Hk a t Hst Hfit). split; auto. destruct Hk as (_ & Hd). apply density_nonempty in Hd. revert Hd.
    unfold predict_target. destruct (normalize _) as (c, eta). cbn [tg_pdf]. apply global_boxed.
  - destruct Hk as (K1 & K2 & K3 & K4). split; [|split; [exact K2|split]].
    + intros rs ts ts' rs' E Hf. apply (K1 rs ts ts' rs' E). eapply Forall_impl; [|exact Hf]. intros t (H & _). exact H.
    + intros r d Hrr. split; [apply K3; auto|]. apply global_boxed. apply density_nonempty. apply (K3 r d Hrr).
    + intros rs ts ts' rs' E Hf Hle. assert (K := K4 rs ts ts' rs' E ltac:(eapply Forall_impl; [|exact Hf]; intros t (H & _); exact H) Hle).
      rewrite Forall_forall in K |- *. intros t Ht Hfit. specialize (K t Ht Hfit). split; auto.
      destruct (cluster_update_global s fuel rs ts ts' rs' E t Ht) as (p & Ep). destruct K as (_ & Hd). rewrite Ep in *. apply global_boxed, density_nonempty. auto.
Qed.

Variable pos : pdf -> point.
Variable mean : pdf -> list R.
Variable ne : point -> list R -> list R.
Definition asked (n : nat) (c : ecall (P := pdf) (Rep := Rep)) : Prop := match c with Call c => request op pm expf pick sortf n c | _ => True end.

Lemma flat_evaluations n (cs : list (ecall (P := pdf) (Rep := Rep))) st : (cw_lim pm <= 1)%R -> (1 / 100000000 * INR (200 * (n + 1)) < r_lim pm)%R ->
  Forall (asked n) cs ->
  ecalls pos mean (pdf_local op) (pdf_global op) ne (volR unit) p_box (p_norm op) (r_lim pm) (cov_lim pm) (rB_max pm) new_tracker cs (Ok st) ->
  consistent p_box st /\ (forall x, In x (live st) -> prob (tg_r (snd x)) /\ density (p_c (tg_pdf (snd x)))) /\
  forall c o, request op pm expf pick sortf n c -> call_step (volR unit) p_box (p_norm op) (r_lim pm) (cov_lim pm) (rB_max pm) st c o -> o <> UB.
Proof.
  intros Hcw Hn Ha H.
  destruct (ecalls_defined (Rep := Rep) pos mean (pdf_local op) (pdf_global op) ne p_box unit unit_pos p_box_real (p_norm op) (r_lim pm) (cov_lim pm) (rB_max pm)
    Hrlim HrB boxed boxed_frame cs st H) as (Hc & HI & Hub).
  { eapply Forall_impl; [|exact Ha]. intros [c| |]; cbn; auto. intros Hr. split; [eapply request_sane; eauto|eapply keeps_boxed; eauto]. }
  split; auto. split; [intros x Hx; exact (proj1 (HI x Hx))|]. intros c o Hr. apply Hub. eapply request_sane; eauto.
Qed.
End Flat.
