(** A concrete case for the update of a cluster from means and covariances: two targets
    and a report, with exponential and logarithm given by tables at the numbers used. *)
From Coq Require Import List Arith Bool Lia ZArith Reals Lra.
From Flocq Require Import Core BinarySingleNaN IEEE754.PrimFloat.
From Coq Require Import Floats.
Import ListNotations.
From Verif Require Import Res Scalar Lap Murty MurtyFloatMain FloatBase FloatExt LapRnd Cluster ClusterFloat FloatSum ClusterFloatClose ClusterFloatMain ClusterFloatWitness.
From Verif Require Import LikFloatProofs KalmanFloatWitness KalmanFloat KalmanFloatProofs KalmanFloatWitness KalmanFloatErr PredictFloatWitness KalmanCorrMain GMFloat GMFloatSpec GMFloatMatch GMFloatCost GMFloatWitness LikFloat LikFloatSpec MixFloat MixFloatSpec MixFloatWitness SceneFloat SceneFloatSpec.
From Interval Require Import Tactic.
Local Open Scope R_scope.

(** A function given by a table, and otherwise by another one. *)
Fixpoint look (l : list (float * float)) (d : float -> float) (x : float) : float :=
  match l with [] => d x | (a, b) :: l => if PrimFloat.eqb x a then b else look l d x end.

Lemma look_exp l : Forall (fun xy => fin (fst xy) /\ fin (snd xy) /\
  (-700 <= fval (fst xy) <= 0 /\ Rabs (fval (snd xy) - exp (fval (fst xy))) <= bp (-40) * exp (fval (fst xy)) \/
   fval (fst xy) < -700 /\ fval (snd xy) = 0)) l -> exp_accurate (look l exp_double).
Proof.
  intros HL x F. induction l as [|[a b] l IH]; cbn [look].
  - apply exp_double_accurate; auto.
  - apply Forall_inv in HL as H1. apply Forall_inv_tail in HL. cbn [fst snd] in H1. destruct H1 as (Fa & Fb & H1).
    destruct (PrimFloat.eqb x a) eqn:E; [|auto]. apply feq_val in E; auto. rewrite E. pose proof (bpow_ge_0 radix2 (-800)).
    destruct H1 as [[H1 H2]|[H1 H2]]; (split; [|split]); intros Hr; try lra; auto. rewrite H2. split; auto; lra.
Qed.

Definition look_log (l : list (float * float)) (x : float) : float :=
  if PrimFloat.ltb x 0 then nan else if PrimFloat.eqb x 0 then neg_infinity else look l (fun x => log_double (ln (fval x))) x.
Lemma look_log_ok l : Forall (fun xy => fin (fst xy) /\ fin (snd xy) /\
  Rabs (fval (snd xy) - ln (fval (fst xy))) <= bp (-40) * (1 + Rabs (ln (fval (fst xy))))) l -> log_accurate (look_log l).
Proof.
  intros HL x F. destruct (proj_Fin _ _ proj_zero) as [F0 V0].
  pose proof (f_lt x 0%float F F0) as EL. cbn [nlt floatN] in EL. unfold look_log. rewrite EL, V0. clear EL.
  destruct (Rlt_bool_spec (fval x) 0) as [Hn|Hp].
  - split; [lra|]. split; [lra|]. reflexivity.
  - destruct (PrimFloat.eqb x 0) eqn:Ez.
    { apply feq_val in Ez; auto. rewrite V0 in Ez. split; [lra|]. split; [auto|lra]. }
    assert (Hx : fval x <> 0).
    { intros E. assert (H : neq extR (proj x) (proj 0%float) = false) by (rewrite <- Ez; apply proj_eq).
      rewrite (proj_fin _ F), proj_zero in H. change (Reqb (fval x) 0 = false) in H. destruct (Reqb_spec (fval x) 0); congruence. }
    split; [|split; lra]. intros _. induction l as [|[a b] l IH]; cbn [look].
    + apply log_double_ok, ln_range; auto. lra.
    + apply Forall_inv in HL as H1. apply Forall_inv_tail in HL. cbn [fst snd] in H1. destruct H1 as (Fa & Fb & H1).
      destruct (PrimFloat.eqb x a) eqn:E; [|auto]. apply feq_val in E; auto. rewrite E. auto.
Qed.

Definition scene_exps : list (float * float) :=
  [((-0x1.064ea1d1d9c5fp+2), (0x1.0febbfeaf662fp-6));
   ((-0x1.ad6815641f4b6p-6), (0x1.f2c15faed03b6p-1));
   ((-0x1.8c66f16fd49e2p-1), (0x1.d8209ec20970ep-2));
   ((-0x1.d791799f1c72fp+0), (0x1.44966d25667dap-3));
   ((-0x1.0a2b23f3bab73p+1), (0x1.0000000000001p-3));
   ((-0x1.87b6f4120d562p+1), (0x1.7ffffffffffffp-5));
   ((-0x1.8f64bcf7ac58cp+1), (0x1.69a40e0bffc4ep-5));
   ((-0x1.92da246753c92p+1), (0x1.6000000000002p-5));
   ((-0x1.0678468aff7bep+2), (0x1.0f3b0a88ffd37p-6));
   ((-0x1.0832fa42d3340p+2), (0x1.0800000000002p-6));
   ((-0x1.d4c0530583006p+14), 0)]%float.
Definition scene_logs : list (float * float) :=
  [((0x1.69a40e0bffc4cp-3), (-0x1.bbe549ffb512ap+0));
   ((0x1.6000000000000p-3), (-0x1.c2d018df03f36p+0));
   ((0x1.0000000000000p-1), (-0x1.62e42fefa39efp-1));
   ((0x1.d8209ec20970ep-1), (-0x1.4c160c0187f94p-4));
   ((0x1.8000000000000p-4), (-0x1.2efde816246e6p+1));
   ((0x1.0000000000000p-2), (-0x1.62e42fefa39efp+0))]%float.

Definition scene_exp := look scene_exps exp_double.
Definition scene_log := look_log scene_logs.

Ltac values := repeat match goal with |- context [fval ?x] => let v := eval vm_compute in (Prim2SF x) in
    replace (fval x) with (SF2R radix2 v) by (rewrite val_SF; reflexivity) end; unfold SF2R, F2R, cond_Zopp, Fnum, Fexp; simpl IZR; simpl bpow.
Lemma scene_exp_ok : exp_accurate scene_exp.
Proof.
  apply look_exp. unfold scene_exps. repeat (apply Forall_cons || apply Forall_nil); cbn [fst snd]; (split; [apply fin_SF; reflexivity|]; split; [apply fin_SF; reflexivity|]); values.
  all: try (left; split; [split; lra|]; interval with (i_prec 80)).
  right. split; [lra|reflexivity].
Qed.
Lemma scene_log_ok : log_accurate scene_log.
Proof.
  assert (G : forall a c, Rabs (a - c) <= 1e-13 -> Rabs (a - c) <= bp (-40) * (1 + Rabs c)).
  { intros a c H. assert (1e-13 <= bp (-40)) by (simpl; lra). pose proof (Rabs_pos c). pose proof (bpow_gt_0 radix2 (-40)).
    assert (bp (-40) * 1 <= bp (-40) * (1 + Rabs c)) by (apply Rmult_le_compat_l; lra). lra. }
  apply look_log_ok. unfold scene_logs. repeat (apply Forall_cons || apply Forall_nil); cbn [fst snd]; (split; [apply fin_SF; reflexivity|]; split; [apply fin_SF; reflexivity|]); apply G; values.
  all: interval with (i_prec 80).
Qed.

(** The report, and two targets: one with a component far from the report and one near
    it, half in view; the other with a single component. *)
Definition scene_reports : list freport := [mkFR report slant kap].
Definition scene_targets : list gtarget :=
  [mkGT 0.5 [(0.5%float, (at1, tilted)); (0.5%float, (at2, tilted))] [1000; 500]%nat [[1000; 500]%nat];
   mkGT 0.75 [(1%float, (at2, tilted))] [1000]%nat [[900]%nat]].

Lemma three_quarters : is 0.75%float (3 / 4). Proof. split; [reflexivity|]. unfold val. cbv -[Rmult Rinv IZR Rdiv]. lra. Qed.
Lemma scene_targets_ok : Forall (scene_ok 2 scene_reports) scene_targets.
Proof.
  assert (U1 : upto 1 1%float) by (destruct v1 as [F E]; split; [exact F|rewrite E; lra]).
  assert (U2 : upto 1 0.5%float) by (destruct half_is as [F E]; split; [exact F|rewrite E; lra]).
  assert (U3 : upto 1 0.75%float) by (destruct three_quarters as [F E]; split; [exact F|rewrite E; lra]).
  assert (B : bp (-900) <= / 2) by (change (/ 2) with (bp (-1)); apply bpow_le; lia). pose proof (bpow_gt_0 radix2 (-53)) as B0.
  assert (K1 : (1000 <= 1000)%nat) by (apply Nat.leb_le; reflexivity). assert (K2 : (500 <= 1000)%nat) by (apply Nat.leb_le; reflexivity). assert (K3 : (900 <= 1000)%nat) by (apply Nat.leb_le; reflexivity).
  apply Forall_cons; [|apply Forall_cons; [|apply Forall_nil]]; unfold scene_ok; cbn [gt_r gt_c gt_in gt_rep length map fst snd].
  - split; [split; [exact U2|right; rewrite (proj2 half_is); exact B]|]. split; [split; [|split]|split; [|split]].
    + intros c [<-|[<-|[]]]; exact U2.
    + discriminate.
    + unfold exact_sum. cbn [map fold_right]. rewrite (proj2 half_is). replace (/ 2 + (/ 2 + 0) - 1) with 0 by field. rewrite Rabs_R0. apply Rmult_le_pos; [simpl; lra|lra].
    + split; [reflexivity|]. intros k [<-|[<-|[]]]; assumption.
    + split; [reflexivity|]. intros ks [<-|[]]. split; [reflexivity|]. intros k [<-|[<-|[]]]; assumption.
    + intros c z [<-|[<-|[]]] [<-|[]]; [exact first_ok|exact second_ok].
  - split; [split; [exact U3|right; rewrite (proj2 three_quarters); lra]|]. split; [split; [|split]|split; [|split]].
    + intros c [<-|[]]; exact U1.
    + discriminate.
    + unfold exact_sum. cbn [map fold_right]. rewrite (proj2 v1). replace (1 + 0 - 1) with 0 by ring. rewrite Rabs_R0. apply Rmult_le_pos; [simpl; lra|lra].
    + split; [reflexivity|]. intros k [<-|[]]; assumption.
    + split; [reflexivity|]. intros ks [<-|[]]. split; [reflexivity|]. intros k [<-|[]]; assumption.
    + intros c z [<-|[]] [<-|[]]. exact second_ok.
Qed.
Lemma scene_reports_ok : forall z, In z scene_reports -> kappa_ok (fr_kappa z).
Proof. intros z [<-|[]]. apply MixFloatWitness.pair_ok. Qed.
Lemma scene_pd : upto (1 - bp (-20)) hpd.
Proof. destruct hpd_is as [F E]. split; [exact F|]. rewrite E. change (bp (-20)) with (/ 1048576). lra. Qed.
Lemma scene_small : scene_slack 2 scene_targets <= / 4.
Proof. unfold scene_slack, sum_of, tol. cbn [scene_targets fold_right gt_c length INR]. change (bp (-32)) with (/ 4294967296). change (bp (-35)) with (/ 34359738368). lra. Qed.

Lemma scene_run : exists out,
  fupdate left_sum scene_exp square scene_reports scene_log hpd (first_top floatN) left_sum 0.000001 100 60 scene_targets = Ok out /\
  fc_n out = 9%nat /\ fin (ClusterFloat.fc_w out) /\ / 2 <= fval (ClusterFloat.fc_w out) <= 2.
Proof.
  eexists. split; [vm_compute; reflexivity|]. cbn [fc_n ClusterFloat.fc_w fc_r]. split; [reflexivity|]. split; [apply fin_SF; reflexivity|]. values. lra.
Qed.
