(** Positive definite covariances after every history. *)
From Coq Require Import Reals List Lra Lia.
From mathcomp Require Import all_ssreflect ssralg ssrnum zmodp matrix mxalgebra.
From Verif Require Import Res Scalar RTree RTreeSpec RTreeInst Murty MurtyMain Cluster ClusterSpec ClusterMain GM GMSpec Tracker TrackerSpec
  TrackerOps TrackerOpsSpec TrackerOpsMain CompSpec CompProofs Kalman KalmanSpec KalmanProofs KalmanMain RField KalmanWitness GaussOps CovSpec CovProofs.
Set Implicit Arguments. Unset Strict Implicit. Unset Printing Implicit Defensive.
Import GRing.Theory Num.Theory Order.Theory.
Local Open Scope ring_scope.

Lemma covariances : forall BB ll2ne ne2ll gbox bof bll rlo rhi pm pick sortf unit n cs st,
  let op := @gauss_ops BB ll2ne ne2ll gbox bof bll rlo rhi in
  valid_sort sortf -> valid_pick pick -> Rlt 0 (tscale pm) -> Rlt 0 (r_lim pm) -> Rle 0 (rB_max pm) /\ Rle (rB_max pm) 1 -> Rlt 0 unit ->
  Rle (cw_lim pm) 1 -> Rlt (Rmult (Rdiv 1 100000000) (INR (200 * (n + 1)))) (r_lim pm) ->
  Forall (valid_request good_model good_report op pm Rtrigo_def.exp pick sortf n) cs ->
  calls (volR unit) (@p_box gauss BB) (p_norm op) (r_lim pm) (cov_lim pm) (rB_max pm) new_tracker cs (Ok st) ->
  forall x, In x (live st) ->
  let c := p_c (tg_pdf (snd x)) in
  (forall w g, In (w, g) c -> @pd RF _ (gP g) /\
     forall z, good_report z ->
       let S := innovation obs (as_gaussian g) (as_report z) in
       S = ulsubmx (gP g) + zP z /\ @pd RF _ S /\ @inverse RF _ S (invmx S)) /\
  @pd RF _ (mixcov c) /\ @pd RF _ (ulsubmx (mixcov c)).
Proof.
move=> BB ll2ne ne2ll gbox bof bll rlo rhi pm pick sortf unit n cs st op H1 H2 H3 H4 H5 H6 H7 H8 Hr Hc x Hx c.
have Hs : sound_ops op by exact: gauss_sound.
have Hp : preserved good_model good_report op good_gauss by exact: gauss_preserved.
have Ha : all_components good_gauss st by exact: (history_components op pm _ _ _ Hp pick sortf Hs H1 H2 H3 H4 H5 unit H6 n H7 H8 cs st Hr Hc).
have Hq : Forall (request op pm Rtrigo_def.exp pick sortf n) cs.
  by apply: Forall_impl Hr => k; exact: valid_is_request.
have Hex : forall N ts, no_underflow Rtrigo_def.exp N ts by move=> N ts; apply: exp_no_underflow.
have [D1 [D2 D3]] : density c by exact: (history_density op pm Rtrigo_def.exp pick sortf Hs H1 H2 Hex H3 H4 H5 unit H6 n cs st H7 H8 Hq Hc).
have Hg : forall g, In g c -> @pd RF _ (gP (snd g)) by move=> g; exact: Ha.
have Hm : @pd RF _ (mixcov c) by apply: mixture_pd => //; rewrite D2; exact: Rlt_0_1.
split; last by split => //; exact: pd_upper.
move=> w g Hin; have HP := Hg _ Hin; split=> // z [Hz _] S.
have HS : @pd RF _ S by apply: psd_pd => //; apply: psd_conj; exact: pd_psd.
split; last by split=> //; apply: inverse_inv; exact: pd_unit.
by rewrite /S /innovation /obs /= -[gP g]submxK tr_row_mx trmx1 trmx0 mul_row_block mul_row_col !mul1mx !mul0mx !addr0 mulmx1 mulmx0 addr0 block_mxKul.
Qed.
