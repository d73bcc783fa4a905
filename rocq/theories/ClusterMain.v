(** The association step in terms of the specification. *)
From Coq Require Import List Arith Bool Lia Reals Lra.
Import ListNotations.
From Verif Require Import Res Scalar Lap LapSpec LapBase LapMain Murty MurtyBase MurtyProofs MurtyMain MurtyApi Cluster ClusterSpec ClusterProofs.
Local Open Scope nat_scope.

Lemma nlog_exp x : nlog (exp x) = Fin (- x)%R.
Proof. rewrite nlog_pos by apply exp_pos. rewrite ln_exp. auto. Qed.

Lemma prod_over_ext {A} (f g : A -> R) l : (forall x, In x l -> f x = g x) -> prod_over f l = prod_over g l.
Proof. induction l; intros H; simpl; auto. rewrite H, IHl; simpl; auto. intros; apply H; simpl; auto. Qed.

Lemma prod_over_pos {A} (f : A -> R) l : (forall x, In x l -> 0 <= f x)%R ->
  ((0 < prod_over f l)%R <-> forall x, In x l -> (0 < f x)%R).
Proof.
  induction l as [|a l IH]; intros H; simpl; [split; [tauto|lra]|].
  assert (Ha : (0 <= f a)%R) by (apply H; simpl; auto).
  assert (IH' : (0 < prod_over f l)%R <-> (forall x, In x l -> (0 < f x)%R)) by (apply IH; intros; apply H; simpl; auto).
  assert (Hp : (0 <= prod_over f l)%R).
  { clear IH IH'. induction l; simpl; [lra|]. apply Rmult_le_pos; [apply H; simpl; auto|].
    apply IHl. intros x [<-|Hx]; apply H; simpl; auto. }
  split.
  - intros Hlt. assert (0 < f a)%R.
    { destruct Ha as [Ha|Ha]; auto. rewrite <- Ha in Hlt. lra. }
    assert (0 < prod_over f l)%R.
    { destruct Hp as [Hp|Hp]; auto. rewrite <- Hp in Hlt. lra. }
    intros x [<-|Hx]; auto. apply IH'; auto.
  - intros Hall. apply Rmult_lt_0_compat; [apply Hall; auto|]. apply IH'. intros; apply Hall; auto.
Qed.

Lemma prod_over_ln {A} (f : A -> R) l : (forall x, In x l -> 0 < f x)%R ->
  sumf (fun x => - ln (f x))%R l = (- ln (prod_over f l))%R.
Proof.
  induction l as [|a l IH]; intros H; simpl; [rewrite ln_1; lra|].
  assert (Ha : (0 < f a)%R) by (apply H; simpl; auto).
  assert (Hl : forall x, In x l -> (0 < f x)%R) by (intros; apply H; simpl; auto).
  rewrite ln_mult; auto; [rewrite IH; auto; lra|].
  apply prod_over_pos; auto. intros; left; auto.
Qed.

Section Spec.
Variables (N : nat) (ts : list target_in).
Hypothesis Hts : forall t, In t ts -> valid_target N t.
Let M := length ts.
Let C := cost_of N ts.

Lemma cw_nonneg i t j : valid_target N t -> (0 <= choice_weight N M i t j)%R.
Proof.
  intros ((H0 & H1) & Hl & Hlik & Hm). unfold choice_weight.
  assert (Htn : (0 <= tiny)%R) by (left; apply exp_pos).
  destruct (Nat.ltb_spec j N).
  - apply Rmult_le_pos; auto. apply Hlik. apply nth_In. lia.
  - destruct (j =? N + i); [apply Rmult_le_pos; auto|]. destruct (j =? N + M + i); auto.
    destruct (Req_EM_T (t_r t) 1); auto. lra.
Qed.

Lemma entry_cw i j : i < M -> j < N + 2 * M ->
  entry NaN C i j = nlog (choice_weight N M i (nth i ts no_target) j).
Proof.
  intros Hi Hj. unfold C. rewrite cost_entry by auto. fold M. set (t := nth i ts no_target).
  assert (Hin : In t ts) by (apply nth_In; auto).
  destruct (Hts t Hin) as ((H0 & H1) & Hl & _). unfold cost_row, choice_weight.
  assert (Htiny : Fin lmb_inf = nlog tiny).
  { unfold tiny. rewrite nlog_exp. unfold lmb_inf. f_equal. lra. }
  destruct (Nat.ltb_spec j N).
  - rewrite app_nth1 by (rewrite map_length; lia).
    rewrite nth_indep with (d' := (fun l => nlog (t_r t * l)%R) 0%R) by (rewrite map_length; lia).
    rewrite (map_nth (fun l => nlog (t_r t * l)%R)). auto.
  - rewrite app_nth2 by (rewrite map_length; lia). rewrite map_length, Hl.
    destruct (lt_dec (j - N) M) as [Hm|Hm].
    + rewrite app_nth1 by (rewrite map_length, seq_length; lia).
      set (f := fun k => if k =? i then nlog (t_r t * t_miss t)%R else Fin lmb_inf).
      rewrite nth_indep with (d' := f 0) by (rewrite map_length, seq_length; auto).
      rewrite (map_nth f), seq_nth by auto. simpl Nat.add. unfold f.
      destruct (Nat.eqb_spec (j - N) i), (Nat.eqb_spec j (N + i)); try lia; auto.
      destruct (Nat.eqb_spec j (N + M + i)); [lia|auto].
    + rewrite app_nth2 by (rewrite map_length, seq_length; lia). rewrite map_length, seq_length.
      set (f := fun k => if k =? i then false_target (t_r t) else Fin lmb_inf).
      rewrite nth_indep with (d' := f 0) by (rewrite map_length, seq_length; lia).
      rewrite (map_nth f), seq_nth by lia. simpl Nat.add. unfold f.
      destruct (Nat.eqb_spec j (N + i)); [lia|].
      destruct (Nat.eqb_spec (j - N - M) i), (Nat.eqb_spec j (N + M + i)); try lia; auto.
      unfold false_target. destruct (Rltb_spec (t_r t) 1), (Req_EM_T (t_r t) 1); auto; lra.
Qed.

Lemma nlog_fin x : (0 <= x)%R -> is_fin (nlog x) <-> (0 < x)%R.
Proof.
  intros H. unfold nlog. destruct (Rltb_spec x 0); [lra|]. destruct (Reqb_spec x 0).
  - split; [intros [y Hy]; discriminate|lra].
  - split; [lra|]. intros _. eexists; reflexivity.
Qed.

Lemma feasible_hyp s : feasible C s <-> hypothesis N ts s.
Proof.
  assert (Heq : length s = M -> (forall j, In j s -> j < N + 2 * M) ->
    ((forall i, i < M -> is_fin (entry NaN C i (nth i s 0))) <-> (0 < weight N ts s)%R)).
  { intros Hl Hr. unfold weight. rewrite prod_over_pos.
    - split; intros H i Hi.
      + apply in_seq in Hi. apply nlog_fin; [apply cw_nonneg, Hts, nth_In; fold M; lia|].
        fold M. rewrite <- entry_cw; [apply H; lia|lia|]. apply Hr, nth_In. lia.
      + rewrite entry_cw; auto; [|apply Hr, nth_In; lia]. apply nlog_fin; [apply cw_nonneg, Hts, nth_In; auto|].
        apply H. apply in_seq. fold M. lia.
    - intros i Hi. apply in_seq in Hi. apply cw_nonneg, Hts, nth_In. lia. }
  split.
  - intros [(Hl & Hnd & Hr) Hf]. split; auto. split; auto. split; auto. apply Heq; auto.
  - intros (Hl & Hnd & Hr & Hw). split; [split; auto|]. apply Heq; auto.
Qed.

Lemma total_weight s : feasible C s -> total C s = (- ln (weight N ts s))%R.
Proof.
  intros Hf. pose proof (proj1 (feasible_hyp s) Hf) as (Hl & _ & Hr & Hw). unfold weight in *.
  assert (Hnn : forall i, In i (seq 0 M) -> (0 <= choice_weight N M i (nth i ts no_target) (nth i s O))%R).
  { intros i Hi. apply in_seq in Hi. apply cw_nonneg, Hts, nth_In. fold M. lia. }
  fold M in Hw, Hl, Hr |- *. rewrite prod_over_pos in Hw by auto. rewrite <- prod_over_ln by auto.
  unfold total. rewrite Rsum_sumf. change (m_rows C) with M. apply sumf_ext. intros i Hi.
  pose proof (Hw i Hi) as Hp. apply in_seq in Hi. rewrite entry_cw by (try apply Hr, nth_In; lia).
  rewrite nlog_pos; auto.
Qed.
End Spec.

(** * The outcome *)
Lemma correct_some expf pick w_lim nhyp_max fuel N ts : 0 < length ts ->
  correct expf pick w_lim nhyp_max fuel N ts =
  ('(n, w_sum, Rm) <- associate expf pick w_lim nhyp_max fuel N ts;;
   match n with
   | O => Ok (mkCorr 0 [] (map (fun t => Fin (t_r t)) ts) (repeat (Fin 1%R) N))
   | _ =>
       let Rn := map (fun x => ediv x w_sum) Rm in
       Ok (mkCorr n Rn
             (map (fun i => fst (target_correct (row_of N i Rn))) (seq 0 (length ts)))
             (map (fun j => nsub extR (Fin 1%R) (esum (col_of NaN N (length ts) j Rn))) (seq 0 N)))
   end).
Proof. intros H. destruct ts; [simpl in H; lia|]. reflexivity. Qed.

Section Outcome.
Variable expf : R -> R.
Variable pick : nat -> list (mstate (T := ext R)) -> nat.
Hypothesis Hpick : valid_pick pick.
Variables w_lim nhyp_max : R.
Variables (N : nat) (ts : list target_in).
Hypothesis Hts : forall t, In t ts -> valid_target N t.
Hypothesis HM30 : length ts <= 30.
Let M := length ts.
Let C := cost_of N ts.
Let w (s : list nat) : R := expf (ln (weight N ts s)).

Lemma W_w s : feasible C s -> W expf N ts s = w s.
Proof. intros H. unfold W, w. fold C. rewrite (total_weight N ts Hts) by auto. f_equal. lra. Qed.

(** The hypotheses [ds] that were used. *)
Record used (ds : list (list nat)) : Prop := {
  us_ne : ds <> [];
  us_h : forall d, In d ds -> hypothesis N ts d;
  us_nd : NoDup ds;
  us_best : forall d s, In d ds -> hypothesis N ts s -> ~ In s ds -> (weight N ts s <= weight N ts d)%R;
  us_max : length ds <= 1 \/ (INR (length ds - 1) < nhyp_max)%R;
  us_stop : (forall s, hypothesis N ts s -> In s ds) \/
            (exists pre d, ds = pre ++ [d] /\ (below w_lim (w d) (sum_over w ds) = true \/ nhyp_max <= INR (length ds))%R) }.

Lemma weight_total d s : feasible C d -> feasible C s -> (total C d <= total C s)%R -> (weight N ts s <= weight N ts d)%R.
Proof.
  intros Hd Hs H. unfold C in *. rewrite !(total_weight N ts Hts) in H by auto.
  apply (feasible_hyp N ts Hts) in Hd. apply (feasible_hyp N ts Hts) in Hs.
  destruct Hd as (_ & _ & _ & Hd), Hs as (_ & _ & _ & Hs).
  destruct (Rle_lt_dec (weight N ts s) (weight N ts d)) as [|Hlt]; auto.
  apply ln_increasing in Hlt; auto. lra.
Qed.

Lemma loop_used n ws Rm : 0 < M ->
  loop_post expf w_lim nhyp_max N ts (n, ws, Rm) ->
  exists ds, used ds /\ n = length ds /\ ws = sum_over w ds /\ length Rm = M * (N + 1) /\
    forall i j, i < M -> j <= N ->
      nth (i * (N + 1) + j) Rm 0%R = sum_over (fun s => if says N i j s then w s else 0%R) ds.
Proof.
  intros HM (ds & Hh & Hs & -> & -> & Hlen & Hcell). exists ds.
  assert (Hw : forall s, In s ds -> W expf N ts s = w s) by (intros; apply W_w; apply Hh; auto).
  assert (Hsum : sum_over (W expf N ts) ds = sum_over w ds) by (apply sumf_ext; auto).
  split; [constructor|].
  - apply (hyps_nonempty expf w_lim nhyp_max N ts Hts). auto.
  - intros d Hd. apply feasible_hyp; auto. apply Hh; auto.
  - apply Hh.
  - intros d s Hd Hhy Hn. apply (feasible_hyp N ts Hts) in Hhy. apply weight_total; auto; [apply Hh; auto|].
    apply (hy_best _ _ _ _ Hh); auto.
  - apply Hh.
  - destruct Hs as [Hs|(pre & d & E & Hs)].
    + left. intros s Hhy. apply Hs. apply feasible_hyp; auto.
    + right. exists pre, d. split; auto. rewrite Hsum in Hs. rewrite Hw in Hs; auto.
      rewrite E. apply in_app_iff. simpl. auto.
  - split; auto. split; auto. split; auto. intros i j Hi Hj. rewrite Hcell by auto.
    apply sumf_ext. intros s Hin. rewrite Hw; auto.
Qed.

Lemma in_max (f : list nat -> R) ds : ds <> [] -> exists d, In d ds /\ forall e, In e ds -> (f e <= f d)%R.
Proof.
  induction ds as [|a ds IH]; [congruence|]. intros _. destruct ds as [|b ds].
  - exists a. simpl. split; auto. intros e [<-|[]]. lra.
  - destruct IH as (d & Hd & Hmax); [discriminate|].
    destruct (Rle_lt_dec (f a) (f d)).
    + exists d. split; [right; auto|]. intros e [<-|He]; auto.
    + exists a. split; [left; auto|]. intros e [<-|He]; [lra|]. specialize (Hmax e He). lra.
Qed.

Lemma used_best ds : used ds -> exists d, In d ds /\ most_likely N ts d.
Proof.
  intros Hu. destruct (in_max (weight N ts) ds (us_ne _ Hu)) as (d & Hd & Hmax).
  exists d. split; auto. split; [apply Hu; auto|]. intros s Hs.
  destruct (in_dec (list_eq_dec Nat.eq_dec) s ds) as [Hin|Hn]; auto. apply (us_best _ Hu d s); auto.
Qed.

Section Pos.
Hypothesis Hexp : no_underflow expf N ts.

Lemma w_nonneg s : (0 <= w s)%R.
Proof. apply (proj1 Hexp). Qed.

Lemma used_pos ds : used ds -> (0 < sum_over w ds)%R.
Proof.
  intros Hu. destruct (used_best ds Hu) as (d & Hd & Hml).
  apply in_split in Hd. destruct Hd as (l1 & l2 & ->). rewrite sumf_app, sumf_cons.
  assert (0 < w d)%R by (apply (proj2 Hexp); auto).
  assert (0 <= sumf w l1)%R by (apply sumf_nonneg; intros; apply w_nonneg).
  assert (0 <= sumf w l2)%R by (apply sumf_nonneg; intros; apply w_nonneg). lra.
Qed.

(** What the correction returns, given the hypotheses used. *)
Definition outcome (ds : list (list nat)) (out : corrected) : Prop :=
  let p := marginal N w ds in
  let rnew i := sum_over (p i) (seq 0 (N + 1)) in
  c_n out = length ds /\
  (forall i j, i < M -> j <= N -> nth (i * (N + 1) + j) (c_R out) NaN = Fin (p i j)) /\
  c_r out = map (fun i => Fin (if Rlt_dec (rnew i) (1 / 1000000) then 0 else rnew i)%R) (seq 0 M) /\
  c_rB out = map (fun j => Fin (1 - sum_over (fun i => p i j) (seq 0 M))%R) (seq 0 N).

Lemma ediv_pos a b : (0 < b)%R -> ediv a b = Fin (a / b)%R.
Proof. intros H. unfold ediv. destruct (Reqb_spec b 0); auto. lra. Qed.

Lemma row_of_nth {A} (d : A) i l : length l = M * (N + 1) -> i < M ->
  row_of N i l = map (fun j => nth (i * (N + 1) + j) l d) (seq 0 (N + 1)).
Proof.
  intros Hl Hi. unfold row_of. apply nth_ext with (d := d) (d' := d).
  - rewrite map_length, seq_length, firstn_length, skipn_length. nia.
  - intros j Hj. rewrite firstn_length, skipn_length in Hj.
    assert (Hj' : j < N + 1) by lia.
    rewrite nth_indep with (d' := (fun j => nth (i * (N + 1) + j) l d) 0) (l := map _ _)
      by (rewrite map_length, seq_length; auto).
    rewrite (map_nth (fun j => nth (i * (N + 1) + j) l d)). rewrite seq_nth by auto. simpl Nat.add.
    clear Hj. revert l Hl. generalize (i * (N + 1)). intros k l _.
    transitivity (nth j (skipn k l) d).
    + rewrite <- (firstn_skipn (N + 1) (skipn k l)) at 2.
      destruct (lt_dec j (length (firstn (N + 1) (skipn k l)))) as [H|H].
      * rewrite app_nth1; auto.
      * rewrite nth_overflow by lia. symmetry. apply nth_overflow.
        rewrite firstn_skipn. rewrite firstn_length in H. lia.
    + clear. revert l. induction k as [|k IH]; intros l; simpl; auto. destruct l as [|a l]; simpl; auto.
      destruct j; auto.
Qed.

Lemma marginal_div ds i j : (sum_over (fun s => if says N i j s then w s else 0) ds / sum_over w ds)%R = marginal N w ds i j.
Proof. reflexivity. Qed.

Lemma correct_outcome fuel out : 0 < M ->
  correct expf pick w_lim nhyp_max fuel N ts = Ok out -> exists ds, used ds /\ outcome ds out.
Proof.
  intros HM Hrun. rewrite correct_some in Hrun by auto. fold M in Hrun.
  destruct (associate expf pick w_lim nhyp_max fuel N ts) as [[[n ws] Rm]| |] eqn:Ea; try discriminate.
  cbn [bind] in Hrun.
  pose proof (proj1 (associate_spec expf pick Hpick w_lim nhyp_max N ts Hts (conj HM HM30)) fuel) as Hpost.
  cbn beta in Hpost. rewrite Ea in Hpost. simpl in Hpost. apply loop_used in Hpost; auto.
  destruct Hpost as (ds & Hu & -> & -> & Hlen & Hcell). exists ds. split; auto.
  destruct (length ds) eqn:El; [destruct ds; [|discriminate]; destruct (us_ne _ Hu); auto|].
  rewrite <- El in Hrun. rewrite El in Hrun. inversion Hrun; subst out; clear Hrun.
  pose proof (used_pos ds Hu) as Hpos.
  set (Rn := map (fun x => ediv x (sumf w ds)) Rm).
  assert (HRlen : length Rn = M * (N + 1)) by (unfold Rn; rewrite map_length; auto).
  assert (HRn : forall i j, i < M -> j <= N -> nth (i * (N + 1) + j) Rn NaN = Fin (marginal N w ds i j)).
  { intros i j Hi Hj. unfold Rn.
    rewrite nth_indep with (d' := (fun x => ediv x (sumf w ds)) 0%R) by (rewrite map_length, Hlen; apply (cell_lt N ts (conj HM HM30)); auto).
    rewrite (map_nth (fun x => ediv x (sumf w ds))). rewrite Hcell by auto. rewrite ediv_pos by auto. auto. }
  unfold outcome. cbn [c_n c_R c_r c_rB]. split; [auto|]. split; [exact HRn|]. split.
  - apply map_ext_in. intros i Hi. apply in_seq in Hi.
    rewrite (row_of_nth NaN) by (auto; lia).
    rewrite (map_ext_in _ (fun j => Fin (marginal N w ds i j))) by (intros j Hj; apply in_seq in Hj; apply HRn; lia).
    unfold target_correct. rewrite <- (map_map (marginal N w ds i) Fin), esum_fin, Rsum_sumf.
    rewrite le_FF. destruct (Rleb_spec (1 / 1000000) (sumf (marginal N w ds i) (seq 0 (N + 1))));
      destruct (Rlt_dec (sumf (marginal N w ds i) (seq 0 (N + 1))) (1 / 1000000)); cbn [fst]; auto; lra.
  - apply map_ext_in. intros j Hj. apply in_seq in Hj. unfold col_of.
    rewrite (map_ext_in _ (fun i => Fin (marginal N w ds i j))) by (intros i Hi; apply in_seq in Hi; apply HRn; lia).
    rewrite <- (map_map (fun i => marginal N w ds i j) Fin), esum_fin, Rsum_sumf. apply (sub_FF 1%R).
Qed.

(** ** Bounds *)
Lemma marginal_nonneg ds i j : used ds -> (0 <= marginal N w ds i j)%R.
Proof.
  intros Hu. unfold marginal. apply Rmult_le_pos.
  - apply sumf_nonneg. intros s _. destruct (says N i j s); [apply w_nonneg|lra].
  - left. apply Rinv_0_lt_compat. apply used_pos; auto.
Qed.

Lemma div_le_1 a b : (0 < b)%R -> (a <= b)%R -> (a / b <= 1)%R.
Proof. intros Hb H. apply (Rmult_le_reg_r b); auto. unfold Rdiv. rewrite Rmult_assoc, Rinv_l by lra. lra. Qed.

Lemma marginal_sum_le {A} (ds : list (list nat)) (f g : A -> nat) l : used ds -> NoDup l ->
  (forall s a b, In s ds -> In a l -> In b l -> says N (f a) (g a) s = true -> says N (f b) (g b) s = true -> a = b) ->
  (sum_over (fun a => marginal N w ds (f a) (g a)) l <= 1)%R.
Proof.
  intros Hu Hnd Hone. unfold marginal. rewrite sumf_div. apply div_le_1; [apply used_pos; auto|].
  rewrite sumf_swap. apply sumf_le. intros s Hs.
  apply (sumf_at_most_one (fun a => says N (f a) (g a) s)); auto; [apply w_nonneg|].
  intros a b Ha Hb. apply Hone; auto.
Qed.

Lemma row_sum_le ds i : used ds -> (0 <= sum_over (marginal N w ds i) (seq 0 (N + 1)) <= 1)%R.
Proof.
  intros Hu. split; [apply sumf_nonneg; intros; apply marginal_nonneg; auto|].
  apply (marginal_sum_le ds (fun _ => i) (fun j => j)); auto; [apply seq_NoDup|].
  intros s a b _ Ha Hb. apply in_seq in Ha. apply in_seq in Hb. unfold says.
  destruct (Nat.ltb_spec a N), (Nat.ltb_spec b N); rewrite !Nat.eqb_eq; lia.
Qed.

Lemma col_sum_le ds j : used ds -> j < N -> (0 <= sum_over (fun i => marginal N w ds i j) (seq 0 M) <= 1)%R.
Proof.
  intros Hu Hj. split; [apply sumf_nonneg; intros; apply marginal_nonneg; auto|].
  apply (marginal_sum_le ds (fun i => i) (fun _ => j)); auto; [apply seq_NoDup|].
  intros s a b Hs Ha Hb. apply in_seq in Ha. apply in_seq in Hb. unfold says.
  replace (j <? N) with true by (symmetry; apply Nat.ltb_lt; auto). rewrite !Nat.eqb_eq. intros E1 E2.
  destruct (us_h _ Hu s Hs) as (Hl & Hnd & _). rewrite (NoDup_nth s 0) in Hnd. apply Hnd; first [congruence | fold M in Hl; lia].
Qed.
End Pos.

Lemma correct_returns :
  (forall fuel, correct expf pick w_lim nhyp_max fuel N ts <> UB) /\
  exists f0 out, forall fuel, f0 <= fuel -> correct expf pick w_lim nhyp_max fuel N ts = Ok out.
Proof.
  destruct (Nat.eq_dec (length ts) 0) as [H0|H0].
  - destruct ts; [|discriminate]. split; [discriminate|]. exists 0. eexists. intros. reflexivity.
  - assert (HM : 0 < length ts) by lia.
    destruct (associate_spec expf pick Hpick w_lim nhyp_max N ts Hts (conj HM HM30)) as [H1 (f0 & [[n ws] Rm] & H2)].
    split.
    + intros fuel. rewrite correct_some by auto. specialize (H1 fuel).
      destruct (associate expf pick w_lim nhyp_max fuel N ts) as [[[n' ws'] Rm']| |]; cbn [bind]; try discriminate.
      * destruct n'; discriminate.
      * destruct H1.
    + destruct n; exists f0; eexists; intros fuel Hf; rewrite correct_some, H2 by auto; reflexivity.
Qed.
End Outcome.

Lemma exp_no_underflow N ts : no_underflow exp N ts.
Proof.
  split; [intros; left; apply exp_pos|]. intros s _. apply exp_pos.
Qed.

Lemma nth_map_seq {A} (f : nat -> A) n i d : i < n -> nth i (map f (seq 0 n)) d = f i.
Proof.
  intros H. rewrite nth_indep with (d' := f 0) by (rewrite map_length, seq_length; auto).
  rewrite (map_nth f), seq_nth by auto. auto.
Qed.

Lemma Permutation_sumf {A} (f : A -> R) l l' : Permutation.Permutation l l' -> sum_over f l = sum_over f l'.
Proof. induction 1; simpl; lra. Qed.

Section Props.
Variable expf : R -> R.
Variable pick : nat -> list (mstate (T := ext R)) -> nat.
Variables w_lim nhyp_max : R.
Variables (fuel N : nat) (ts : list target_in) (out : corrected).
Hypothesis Hpick : valid_pick pick.
Hypothesis Hts : forall t, In t ts -> valid_target N t.
Hypothesis HM30 : length ts <= 30.
Hypothesis Hrun : correct expf pick w_lim nhyp_max fuel N ts = Ok out.
Let M := length ts.
Let w (s : list nat) : R := expf (ln (weight N ts s)).

Lemma no_targets : ts = [] -> out = mkCorr 0 [] [] (repeat (Fin 1%R) N).
Proof. intros E. unfold correct in Hrun. rewrite E in Hrun. inversion Hrun. auto. Qed.

Lemma some_targets : ts <> [] -> 0 < M.
Proof. unfold M. destruct ts; [congruence|simpl; lia]. Qed.

Lemma r_bounds : no_underflow expf N ts ->
  length (c_r out) = length ts /\
  forall i, i < length ts -> exists x, nth i (c_r out) NaN = Fin x /\ (0 <= x <= 1)%R.
Proof.
  intros Hexp. destruct (list_eq_dec (fun a b : nat => Nat.eq_dec a b) (map (fun _ => 0) ts) []) as [E|E].
  - assert (Ht : ts = []) by (destruct ts; [auto|discriminate]). rewrite (no_targets Ht), Ht. simpl. split; auto. lia.
  - assert (HM : 0 < M) by (apply some_targets; intros Ht; rewrite Ht in E; auto).
    destruct (correct_outcome expf pick Hpick w_lim nhyp_max N ts Hts HM30 Hexp fuel out HM Hrun) as (ds & Hu & _ & _ & -> & _).
    rewrite map_length, seq_length. split; auto. intros i Hi.
    rewrite nth_map_seq by auto. eexists. split; [reflexivity|].
    pose proof (row_sum_le expf w_lim nhyp_max N ts HM30 Hexp ds i Hu).
    destruct (Rlt_dec _ _); lra.
Qed.

Lemma rB_split : no_underflow expf N ts ->
  length (c_rB out) = N /\
  forall j, j < N -> exists b, nth j (c_rB out) NaN = Fin b /\ (0 <= b <= 1)%R /\
    (ts = [] -> b = 1%R) /\
    (ts <> [] -> exists p, (forall i, i < length ts -> nth (i * (N + 1) + j) (c_R out) NaN = Fin (p i) /\ (0 <= p i)%R) /\
       Rplus (sum_over p (seq 0 (length ts))) b = 1%R).
Proof.
  intros Hexp. destruct (list_eq_dec (fun a b : nat => Nat.eq_dec a b) (map (fun _ => 0) ts) []) as [E|E].
  - assert (Ht : ts = []) by (destruct ts; [auto|discriminate]). rewrite (no_targets Ht). simpl.
    split; [apply repeat_length|]. intros j Hj. exists 1%R.
    split; [|split; [lra|split; [auto|congruence]]].
    rewrite nth_indep with (d' := Fin 1%R) by (rewrite repeat_length; auto). apply nth_repeat.
  - assert (HM : 0 < M) by (apply some_targets; intros Ht; rewrite Ht in E; auto).
    destruct (correct_outcome expf pick Hpick w_lim nhyp_max N ts Hts HM30 Hexp fuel out HM Hrun) as (ds & Hu & _ & HR & _ & ->).
    rewrite map_length, seq_length. split; auto. intros j Hj.
    rewrite nth_map_seq by auto. eexists. split; [reflexivity|].
    pose proof (col_sum_le expf w_lim nhyp_max N ts HM30 Hexp ds j Hu Hj).
    split; [lra|]. split; [intros Ht; unfold M in HM; rewrite Ht in HM; simpl in HM; lia|].
    intros _. exists (fun i => marginal N (fun s => expf (ln (weight N ts s))) ds i j).
    split; [|lra]. intros i Hi. split; [apply HR; auto; lia|].
    apply (marginal_nonneg expf w_lim nhyp_max N ts Hexp ds i j Hu).
Qed.

Lemma truncation : (forall x y, (x <= y)%R -> (expf x <= expf y)%R) -> no_underflow expf N ts -> ts <> [] ->
  exists ds,
    c_n out = length ds /\ NoDup ds /\ 1 <= length ds /\
    (forall i j, i < length ts -> j <= N -> nth (i * (N + 1) + j) (c_R out) NaN = Fin (marginal N w ds i j)) /\
    (forall d, In d ds -> hypothesis N ts d) /\
    (forall d s, In d ds -> hypothesis N ts s -> ~ In s ds -> (weight N ts s <= weight N ts d)%R) /\
    (length ds <= 1 \/ (INR (length ds - 1) < nhyp_max)%R) /\
    (forall s, hypothesis N ts s -> ~ In s ds -> (nhyp_max <= INR (length ds))%R \/ (w s < w_lim * sum_over w ds)%R).
Proof.
  intros Hmono Hexp Ht. pose proof (some_targets Ht) as HM.
  destruct (correct_outcome expf pick Hpick w_lim nhyp_max N ts Hts HM30 Hexp fuel out HM Hrun) as (ds & Hu & Hn & HR & _).
  exists ds. split; auto. split; [apply Hu|]. split.
  { destruct ds; [destruct (us_ne _ _ _ _ _ _ Hu); auto|simpl; lia]. }
  split; auto. split; [apply Hu|]. split; [apply (us_best _ _ _ _ _ _ Hu)|]. split; [apply Hu|].
  intros s Hs Hns. destruct (us_stop _ _ _ _ _ _ Hu) as [Hall|(pre & d & E & [Hb|Hb])].
  - destruct (Hns (Hall s Hs)).
  - right. pose proof (used_pos expf w_lim nhyp_max N ts Hexp ds Hu) as Hpos.
    unfold below in Hb. rewrite ediv_pos in Hb by auto. rewrite lt_FF in Hb.
    match type of Hb with Rltb ?a ?b = _ => destruct (Rltb_spec a b) as [Hlt|]; [|discriminate] end.
    assert (Hd : In d ds) by (rewrite E; apply in_app_iff; simpl; auto).
    assert (Hle : (w s <= w d)%R).
    { apply Hmono. pose proof (us_best _ _ _ _ _ _ Hu d s Hd Hs Hns) as Hb'.
      destruct Hs as (_ & _ & _ & Hs). destruct Hb' as [Hb'| ->]; [|lra]. left. apply ln_increasing; auto. }
    fold w in Hlt, Hpos. apply Rmult_lt_compat_r with (r := sum_over w ds) in Hlt; auto.
    unfold Rdiv in Hlt. rewrite Rmult_assoc, Rinv_l in Hlt by lra. fold (w d) in Hlt. lra.
  - auto.
Qed.

(** A complete enumeration. *)
Lemma exact_marginals all : no_underflow expf N ts -> ts <> [] ->
  NoDup all -> (forall s, In s all <-> hypothesis N ts s) ->
  ((w_lim <= 0)%R -> (INR (length all) <= nhyp_max)%R -> c_n out = length all) /\
  (c_n out = length all -> forall i j, i < length ts -> j <= N ->
     nth (i * (N + 1) + j) (c_R out) NaN = Fin (marginal N w all i j)).
Proof.
  intros Hexp Ht Hnd Hall. pose proof (some_targets Ht) as HM.
  destruct (correct_outcome expf pick Hpick w_lim nhyp_max N ts Hts HM30 Hexp fuel out HM Hrun) as (ds & Hu & Hn & HR & _).
  assert (Hincl : incl ds all) by (intros d Hd; apply Hall; apply Hu; auto).
  split.
  - intros Hw Hmax. rewrite Hn. apply Nat.le_antisymm.
    + apply NoDup_incl_length; auto. apply Hu.
    + destruct (us_stop _ _ _ _ _ _ Hu) as [Ha|(pre & d & E & [Hb|Hb])].
      * apply NoDup_incl_length; auto. intros s Hs. apply Ha. apply Hall; auto.
      * exfalso. pose proof (used_pos expf w_lim nhyp_max N ts Hexp ds Hu) as Hpos.
        unfold below in Hb. rewrite ediv_pos in Hb by auto. rewrite lt_FF in Hb.
        match type of Hb with Rltb ?a ?b = _ => destruct (Rltb_spec a b) as [Hlt|]; [|discriminate] end.
        assert (0 <= expf (ln (weight N ts d)) / sum_over (fun s => expf (ln (weight N ts s))) ds)%R; [|lra].
        apply Rmult_le_pos; [apply (proj1 Hexp)|]. left. apply Rinv_0_lt_compat. auto.
      * apply INR_le. lra.
  - intros E i j Hi Hj. rewrite HR by auto. f_equal. unfold marginal.
    assert (Hp : Permutation.Permutation ds all).
    { apply Permutation.NoDup_Permutation_bis; auto; [apply Hu|lia]. }
    rewrite !(Permutation_sumf _ _ _ Hp). reflexivity.
Qed.
End Props.

(** * One target, no reports *)
Lemma lone_target pick w_lim nhyp_max fuel r m out :
  valid_pick pick -> (0 < r < 1)%R -> (0 < m <= 1)%R -> (w_lim <= 1)%R -> (1 < nhyp_max)%R ->
  correct exp pick w_lim nhyp_max fuel 0 [mkTin r [] m] = Ok out ->
  let x := (r * m / (r * m + (1 - r)))%R in
  c_r out = [Fin (if Rlt_dec x (1 / 1000000) then 0%R else x)].
Proof.
  intros Hpick Hr Hm Hw Hn Hrun.
  set (ts := [mkTin r [] m]) in *.
  assert (Hts : forall t, In t ts -> valid_target 0 t).
  { intros t [<-|[]]. unfold valid_target. simpl. repeat split; try lra; tauto. }
  assert (HM30 : length ts <= 30) by (simpl; lia).
  assert (HM : 0 < length ts) by (simpl; lia).
  assert (Wt0 : weight 0 ts [0] = (r * m)%R) by (unfold weight, choice_weight; simpl; lra).
  assert (Wt1 : weight 0 ts [1] = (1 - r)%R).
  { unfold weight, choice_weight; simpl. destruct (Req_EM_T r 1); lra. }
  assert (Hrm : (0 < r * m)%R) by (apply Rmult_lt_0_compat; lra).
  assert (H0 : hypothesis 0 ts [0]).
  { split; [reflexivity|]. split; [repeat constructor; simpl; tauto|]. split; [intros j [<-|[]]; simpl; lia|]. rewrite Wt0. auto. }
  assert (H1 : hypothesis 0 ts [1]).
  { split; [reflexivity|]. split; [repeat constructor; simpl; tauto|]. split; [intros j [<-|[]]; simpl; lia|]. rewrite Wt1. lra. }
  assert (Hall : forall s, hypothesis 0 ts s -> s = [0] \/ s = [1]).
  { intros s (Hl & _ & Hb & _). destruct s as [|j [|j' s]]; try discriminate. simpl in Hb.
    assert (j < 2) by (apply Hb; auto). destruct j as [|[|j]]; auto; lia. }
  destruct (correct_outcome exp pick Hpick w_lim nhyp_max 0 ts Hts HM30 (exp_no_underflow 0 ts) fuel out HM Hrun)
    as (ds & Hu & _ & _ & -> & _).
  assert (Hin : forall s, hypothesis 0 ts s -> In s ds).
  { destruct (us_stop _ _ _ _ _ _ Hu) as [Ha|(pre & d & E & Hb)]; auto.
    assert (Hinc : incl ds [[0]; [1]]).
    { intros d' Hd'. apply (us_h _ _ _ _ _ _ Hu) in Hd'. apply Hall in Hd'. simpl. destruct Hd' as [->| ->]; auto. }
    destruct pre as [|p pre].
    - exfalso. rewrite E in Hb. simpl app in Hb. destruct Hb as [Hb|Hb]; [|simpl in Hb; lra].
      rewrite sumf_cons, sumf_nil in Hb. unfold below in Hb.
      assert (Hp : (0 < exp (ln (weight 0 ts d)))%R) by apply exp_pos.
      rewrite ediv_pos in Hb by lra. rewrite lt_FF in Hb.
      match type of Hb with Rltb ?a ?b = _ => destruct (Rltb_spec a b) as [Hlt|]; [|discriminate] end.
      unfold Rdiv in Hlt. rewrite Rplus_0_r, Rinv_r in Hlt by lra. lra.
    - assert (Hlen : length [[0];[1]] <= length ds) by (rewrite E, app_length; simpl; lia).
      pose proof (NoDup_length_incl (us_nd _ _ _ _ _ _ Hu) Hlen Hinc) as Hinc'.
      intros s Hs. apply Hinc'. apply Hall in Hs. simpl. destruct Hs as [->| ->]; auto. }
  assert (Hp : Permutation.Permutation ds [[0]; [1]]).
  { apply Permutation.NoDup_Permutation; [apply Hu|repeat constructor; simpl; intuition discriminate|].
    intros s. split; intros Hs.
    - apply (us_h _ _ _ _ _ _ Hu) in Hs. apply Hall in Hs. simpl. destruct Hs as [->| ->]; auto.
    - simpl in Hs. destruct Hs as [<-|[<-|[]]]; auto. }
  assert (Hx : sum_over (marginal 0 (fun s => exp (ln (weight 0 ts s))) ds 0) (seq 0 (0 + 1)) = (r * m / (r * m + (1 - r)))%R).
  { simpl seq. rewrite sumf_cons, sumf_nil. unfold marginal.
    rewrite !(Permutation_sumf _ _ _ Hp). rewrite !sumf_cons, !sumf_nil.
    unfold says. simpl Nat.ltb. simpl Nat.eqb. rewrite Wt0, Wt1, !exp_ln by lra.
    rewrite !Rplus_0_r. reflexivity. }
  cbv zeta. change (seq 0 (length ts)) with [0]. cbn [map]. rewrite Hx. reflexivity.
Qed.

(** * Underflow *)
Lemma sum_zero {A} (f : A -> R) l : (forall x, In x l -> f x = 0%R) -> sum_over f l = 0%R.
Proof. intros H. rewrite (sumf_ext f (fun _ => 0%R)) by auto. apply sumf_0. Qed.

Lemma fold_nan (l : list (ext R)) : fold_left (nadd extR) l NaN = NaN.
Proof. induction l; auto. Qed.

Lemma underflow expf pick w_lim nhyp_max fuel N ts out :
  valid_pick pick -> (forall t, In t ts -> valid_target N t) -> 0 < length ts <= 30 ->
  (forall s, hypothesis N ts s -> expf (ln (weight N ts s)) = 0%R) ->
  correct expf pick w_lim nhyp_max fuel N ts = Ok out ->
  c_rB out = repeat NaN N /\ c_r out = repeat (Fin 0%R) (length ts).
Proof.
  intros Hpick Hts [HM HM30] H0 Hrun.
  rewrite correct_some in Hrun by auto.
  destruct (associate expf pick w_lim nhyp_max fuel N ts) as [[[n ws] Rm]| |] eqn:Ea; try discriminate.
  cbn [bind] in Hrun.
  pose proof (proj1 (associate_spec expf pick Hpick w_lim nhyp_max N ts Hts (conj HM HM30)) fuel) as Hpost.
  cbn beta in Hpost. rewrite Ea in Hpost. simpl in Hpost. apply loop_used in Hpost; auto.
  destruct Hpost as (ds & Hu & -> & -> & Hlen & Hcell).
  destruct (length ds) eqn:El; [destruct ds; [|discriminate]; destruct (us_ne _ _ _ _ _ _ Hu); auto|].
  assert (Hws : sumf (fun s => expf (ln (weight N ts s))) ds = 0%R).
  { apply sum_zero. intros s Hs. apply H0. apply Hu; auto. }
  rewrite Hws in Hrun. inversion Hrun; subst out; clear Hrun. cbn [c_rB c_r].
  set (Rn := map (fun x => ediv x 0) Rm).
  assert (HRlen : length Rn = length ts * (N + 1)) by (unfold Rn; rewrite map_length; auto).
  assert (HRn : forall i j, i < length ts -> j <= N -> nth (i * (N + 1) + j) Rn NaN = NaN).
  { intros i j Hi Hj. unfold Rn.
    rewrite nth_indep with (d' := (fun x => ediv x 0) 0%R) by (rewrite map_length, Hlen; apply (cell_lt N ts (conj HM HM30)); auto).
    rewrite (map_nth (fun x => ediv x 0)). rewrite Hcell by auto. rewrite sum_zero.
    - unfold ediv. destruct (Reqb_spec 0 0); [auto|congruence].
    - intros s Hs. rewrite H0 by (apply Hu; auto). destruct (says N i j s); auto. }
  assert (Hrep : forall (B : Type) (f : nat -> B) (c : B) n k, (forall x, k <= x < k + n -> f x = c) -> map f (seq k n) = repeat c n).
  { intros B f c n0 k. revert k. induction n0 as [|n0 IH]; intros k Hf; simpl; auto.
    rewrite Hf by lia. f_equal. apply IH. intros; apply Hf; lia. }
  split.
  - apply Hrep. intros j Hj. unfold col_of, esum.
    destruct (length ts) as [|M'] eqn:EM; [lia|]. cbn [seq map fold_left].
    rewrite (HRn 0 j) by lia. change (nadd extR (Fin 0%R) NaN) with (@NaN R). rewrite fold_nan. reflexivity.
  - apply Hrep. intros i Hi. rewrite (row_of_nth N ts HM30 NaN) by (auto; lia).
    replace (seq 0 (N + 1)) with (0 :: seq 1 N) by (rewrite (Nat.add_comm N 1); reflexivity).
    cbn [map]. unfold target_correct, esum. cbn [fold_left].
    rewrite (HRn i 0) by lia. change (nadd extR (Fin 0%R) NaN) with (@NaN R). rewrite fold_nan. reflexivity.
Qed.

(** * Forms used by the properties *)
Lemma marginal_ext N (f g : list nat -> R) ds i j : (forall s, In s ds -> f s = g s) ->
  marginal N f ds i j = marginal N g ds i j.
Proof.
  intros H. unfold marginal. rewrite (sumf_ext f g) by auto. f_equal. apply sumf_ext.
  intros s Hs. rewrite H; auto.
Qed.

Lemma exact_marginals_exp pick w_lim nhyp_max fuel N ts out all :
  valid_pick pick -> (forall t, In t ts -> valid_target N t) -> length ts <= 30 -> ts <> [] ->
  correct exp pick w_lim nhyp_max fuel N ts = Ok out ->
  NoDup all -> (forall s, In s all <-> hypothesis N ts s) ->
  ((w_lim <= 0)%R -> (INR (length all) <= nhyp_max)%R -> c_n out = length all) /\
  (c_n out = length all -> forall i j, i < length ts -> j <= N ->
     nth (i * (N + 1) + j) (c_R out) NaN = Fin (marginal N (weight N ts) all i j)).
Proof.
  intros Hp Ht Hl Hne Hr Hnd Hall.
  destruct (exact_marginals exp pick w_lim nhyp_max fuel N ts out Hp Ht Hl Hr all (exp_no_underflow N ts) Hne Hnd Hall) as [H1 H2].
  split; auto. intros E i j Hi Hj. rewrite H2 by auto. f_equal. apply marginal_ext.
  intros s Hs. apply Hall in Hs. apply exp_ln. apply Hs.
Qed.

Lemma truncation_exp pick w_lim nhyp_max fuel N ts out :
  valid_pick pick -> (forall t, In t ts -> valid_target N t) -> length ts <= 30 -> ts <> [] ->
  correct exp pick w_lim nhyp_max fuel N ts = Ok out ->
  exists ds,
    c_n out = length ds /\ NoDup ds /\ 1 <= length ds /\
    (forall i j, i < length ts -> j <= N ->
       nth (i * (N + 1) + j) (c_R out) NaN = Fin (marginal N (weight N ts) ds i j)) /\
    (forall d, In d ds -> hypothesis N ts d) /\
    (forall d s, In d ds -> hypothesis N ts s -> ~ In s ds -> (weight N ts s <= weight N ts d)%R) /\
    (length ds <= 1 \/ (INR (length ds - 1) < nhyp_max)%R) /\
    (forall s, hypothesis N ts s -> ~ In s ds ->
       (nhyp_max <= INR (length ds))%R \/ (weight N ts s < w_lim * sum_over (weight N ts) ds)%R).
Proof.
  intros Hp Ht Hl Hne Hr.
  destruct (truncation exp pick w_lim nhyp_max fuel N ts out Hp Ht Hl Hr) as (ds & H1 & H2 & H3 & H4 & H5 & H6 & H7 & H8);
    auto; [|apply exp_no_underflow|].
  { intros x y [H| ->]; [left; apply exp_increasing; auto|lra]. }
  assert (Hw : forall s, In s ds -> exp (ln (weight N ts s)) = weight N ts s).
  { intros s Hs. apply exp_ln. apply (H5 s Hs). }
  exists ds. split; auto. split; auto. split; auto. split.
  { intros i j Hi Hj. rewrite H4 by auto. f_equal. apply marginal_ext. auto. }
  split; auto. split; auto. split; auto.
  intros s Hs Hn. destruct (H8 s Hs Hn) as [H|H]; auto. right.
  rewrite exp_ln in H by apply Hs. rewrite (sumf_ext _ (weight N ts)) in H by auto. auto.
Qed.

Lemma at_most pick w_lim K fuel N ts out :
  valid_pick pick -> (forall t, In t ts -> valid_target N t) -> length ts <= 30 -> ts <> [] ->
  correct exp pick w_lim (INR K) fuel N ts = Ok out -> 1 <= c_n out <= Nat.max 1 K.
Proof.
  intros Hp Ht Hl Hne Hr.
  destruct (truncation_exp pick w_lim (INR K) fuel N ts out Hp Ht Hl Hne Hr) as (ds & -> & _ & H3 & _ & _ & _ & H7 & _).
  destruct H7 as [H7|H7]; [lia|]. apply INR_lt in H7. lia.
Qed.

Lemma nan_witness expf pick w_lim nhyp_max :
  (forall x, (x <= -746)%R -> expf x = 0%R) -> valid_pick pick ->
  exists fuel N ts out,
    (forall t, In t ts -> valid_target N t) /\ length ts <= 30 /\
    (exists s, hypothesis N ts s) /\
    correct expf pick w_lim nhyp_max fuel N ts = Ok out /\
    In NaN (c_rB out).
Proof.
  intros He Hp. set (t := mkTin 1 [1/2]%R 0). set (ts := [t; t]).
  assert (Ht : forall t, In t ts -> valid_target 1 t).
  { intros t' Hin. assert (t' = t) by (simpl in Hin; intuition). subst t'. unfold valid_target. simpl.
    repeat split; try lra. intros l [<-|[]]. lra. }
  assert (Hl : length ts <= 30) by (simpl; lia).
  assert (Htiny : (0 < tiny)%R) by apply exp_pos.
  assert (Htiny1 : (tiny < 1)%R).
  { unfold tiny. rewrite <- exp_0. apply exp_increasing. lra. }
  destruct (correct_returns expf pick Hp w_lim nhyp_max 1 ts Ht Hl) as [_ (fuel & out & Hrun)].
  specialize (Hrun fuel (le_n _)).
  exists fuel, 1, ts, out. split; auto. split; auto. split; [|split; auto].
  - exists [0; 4]. split; [reflexivity|]. split; [repeat constructor; simpl; lia|]. split.
    + intros j Hj. simpl in *. repeat (destruct Hj as [<-|Hj]; [lia|]). destruct Hj.
    + unfold weight, choice_weight; simpl. destruct (Req_EM_T 1 1); [|congruence]. lra.
  - apply underflow in Hrun; auto; [|simpl; lia|].
    + destruct Hrun as [-> _]. simpl. auto.
    + intros s Hs. apply He. assert (Hle : (weight 1 ts s <= tiny)%R).
      { destruct Hs as (Hlen & Hnd & Hb & _). destruct s as [|a [|b [|c s]]]; try discriminate.
        assert (Hab : a <> b) by (inversion Hnd; subst; simpl in *; intuition).
        clear Hlen Hnd. assert (a < 5) by (apply Hb; simpl; auto). assert (b < 5) by (apply Hb; simpl; auto).
        unfold weight, choice_weight.
        assert (Ht2 : (tiny * tiny <= tiny)%R) by (rewrite <- (Rmult_1_r tiny) at 3; apply Rmult_le_compat_l; lra).
        destruct a as [|[|[|[|[|a]]]]]; try lia; destruct b as [|[|[|[|[|b]]]]]; try lia; simpl;
          destruct (Req_EM_T 1 1); try congruence; lra. }
      destruct Hs as (_ & _ & _ & Hw). apply Rle_trans with (ln tiny).
      * destruct Hle as [Hlt| ->]; [left; apply ln_increasing; auto|lra].
      * unfold tiny. rewrite ln_exp. lra.
Qed.
