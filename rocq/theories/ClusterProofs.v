(** Proofs about the association step. *)
From Coq Require Import List Arith Bool Lia Reals Lra.
Import ListNotations.
From Verif Require Import Res Scalar Lap LapSpec LapBase LapMain Murty MurtyBase MurtyProofs MurtyMain MurtyApi Cluster ClusterSpec.
Local Open Scope nat_scope.

(** * Sums *)
Notation sumf := sum_over.

Lemma Rsum_sumf {A} (f : A -> R) l : Rsum (map f l) = sumf f l.
Proof. induction l; simpl; auto. rewrite IHl. auto. Qed.

Lemma sumf_nil {A} (f : A -> R) : sumf f [] = 0%R.
Proof. reflexivity. Qed.
Lemma sumf_cons {A} (f : A -> R) x l : sumf f (x :: l) = (f x + sumf f l)%R.
Proof. reflexivity. Qed.
Lemma sumf_app {A} (f : A -> R) l l' : sumf f (l ++ l') = (sumf f l + sumf f l')%R.
Proof. induction l; simpl; [lra|]. rewrite IHl. lra. Qed.
Lemma sumf_nonneg {A} (f : A -> R) l : (forall x, In x l -> 0 <= f x)%R -> (0 <= sumf f l)%R.
Proof.
  induction l; intros H; [rewrite sumf_nil; lra|]. rewrite sumf_cons.
  assert (0 <= f a)%R by (apply H; simpl; auto). assert (0 <= sumf f l)%R by (apply IHl; intros; apply H; simpl; auto). lra.
Qed.
Lemma sumf_ext {A} (f g : A -> R) l : (forall x, In x l -> f x = g x) -> sumf f l = sumf g l.
Proof.
  induction l; intros H; [auto|]. rewrite !sumf_cons, IHl by (intros; apply H; simpl; auto).
  rewrite H by (simpl; auto). auto.
Qed.
Lemma sumf_le {A} (f g : A -> R) l : (forall x, In x l -> f x <= g x)%R -> (sumf f l <= sumf g l)%R.
Proof.
  induction l; intros H; [rewrite !sumf_nil; lra|]. rewrite !sumf_cons.
  assert (f a <= g a)%R by (apply H; simpl; auto). assert (sumf f l <= sumf g l)%R by (apply IHl; intros; apply H; simpl; auto). lra.
Qed.
Lemma sumf_pos {A} (f : A -> R) l : l <> [] -> (forall x, In x l -> 0 < f x)%R -> (0 < sumf f l)%R.
Proof.
  destruct l as [|x l]; [congruence|]. intros _ H. rewrite sumf_cons.
  assert (0 < f x)%R by (apply H; simpl; auto).
  assert (0 <= sumf f l)%R by (apply sumf_nonneg; intros; left; apply H; simpl; auto). lra.
Qed.
Lemma sumf_0 {A} (l : list A) : sumf (fun _ => 0%R) l = 0%R.
Proof. induction l; auto. rewrite sumf_cons, IHl. lra. Qed.
Lemma sumf_plus {A} (f g : A -> R) l : sumf (fun x => f x + g x)%R l = (sumf f l + sumf g l)%R.
Proof. induction l; [simpl; lra|]. rewrite !sumf_cons, IHl. lra. Qed.
Lemma sumf_swap {A B} (f : A -> B -> R) l l' :
  sumf (fun a => sumf (f a) l') l = sumf (fun b => sumf (fun a => f a b) l) l'.
Proof.
  induction l as [|a l IH]; [rewrite sumf_nil; symmetry; apply sumf_0|].
  rewrite sumf_cons, IH, <- sumf_plus. apply sumf_ext. intros b _. rewrite sumf_cons. auto.
Qed.
Lemma sumf_div {A} (f : A -> R) c l : sumf (fun x => f x / c)%R l = (sumf f l / c)%R.
Proof. induction l; [simpl; lra|]. rewrite !sumf_cons, IHl. lra. Qed.

(** At most one element of a list without duplicates satisfies [u]. *)
Lemma sumf_at_most_one {A} (u : A -> bool) w l : (0 <= w)%R -> NoDup l ->
  (forall a b, In a l -> In b l -> u a = true -> u b = true -> a = b) ->
  (sumf (fun a => if u a then w else 0) l <= w)%R.
Proof.
  intros Hw. induction 1 as [|a l Hn Hnd IH]; intros Hu; [rewrite sumf_nil; auto|].
  rewrite sumf_cons. destruct (u a) eqn:E.
  - rewrite (sumf_ext _ (fun _ => 0%R)); [rewrite sumf_0; lra|].
    intros b Hb. destruct (u b) eqn:Eb; auto. exfalso. apply Hn.
    rewrite (Hu a b); simpl; auto.
  - assert (sumf (fun a => if u a then w else 0) l <= w)%R; [|lra].
    apply IH. intros; apply Hu; simpl; auto.
Qed.

Lemma fold_add_fin l : forall a, fold_left (nadd extR) (map Fin l) (Fin a) = Fin (a + Rsum l)%R.
Proof.
  induction l as [|x l IH]; intros a; [simpl; f_equal; lra|].
  cbn [map fold_left]. rewrite add_FF, IH. f_equal. simpl. lra.
Qed.
Lemma esum_fin l : esum (map Fin l) = Fin (Rsum l).
Proof. unfold esum. rewrite fold_add_fin. f_equal. lra. Qed.

(** * Tables with rows of equal width *)
Lemma flat_map_width {A B} (f : A -> list B) w l : (forall x, In x l -> length (f x) = w) ->
  length (flat_map f l) = length l * w.
Proof.
  induction l as [|x l IH]; intros H; simpl; auto.
  rewrite app_length, IH, H; simpl; auto. intros; apply H; simpl; auto.
Qed.
Lemma flat_map_nth {A B} (f : A -> list B) w l i j da db : (forall x, In x l -> length (f x) = w) ->
  i < length l -> j < w -> nth (i * w + j) (flat_map f l) db = nth j (f (nth i l da)) db.
Proof.
  revert i. induction l as [|x l IH]; intros i H Hi Hj; simpl in Hi; [lia|].
  simpl flat_map. assert (Hx : length (f x) = w) by (apply H; simpl; auto).
  destruct i as [|i].
  - simpl. apply app_nth1. lia.
  - rewrite app_nth2 by (rewrite Hx; simpl; lia). rewrite Hx.
    replace (S i * w + j - w) with (i * w + j) by (simpl; lia).
    rewrite IH; [reflexivity| |lia|lia]. intros; apply H; simpl; auto.
Qed.

(** * The cost matrix *)
Lemma nlog_cases x : (0 <= x)%R -> is_fin (nlog x) \/ nlog x = PInf.
Proof.
  intros H. unfold nlog. destruct (Rltb_spec x 0); [lra|].
  destruct (Reqb_spec x 0); [auto|left; eexists; reflexivity].
Qed.
Lemma nlog_pos x : (0 < x)%R -> nlog x = Fin (- ln x)%R.
Proof.
  intros H. unfold nlog. destruct (Rltb_spec x 0); [lra|]. destruct (Reqb_spec x 0); [lra|auto].
Qed.
Lemma false_target_fin r : (r <= 1)%R -> is_fin (false_target r).
Proof.
  intros H. unfold false_target. destruct (Rltb_spec r 1); [|eexists; reflexivity].
  rewrite nlog_pos by lra. eexists; reflexivity.
Qed.

Section Matrix.
Variables (N : nat) (ts : list target_in).
Hypothesis Hts : forall t, In t ts -> valid_target N t.
Let M := length ts.
Let C := cost_of N ts.

Lemma row_length i t : In t ts -> length (cost_row M i t) = N + 2 * M.
Proof.
  intros H. destruct (Hts t H) as (_ & Hl & _). unfold cost_row.
  rewrite !app_length, !map_length, !seq_length. lia.
Qed.

Lemma combine_in it : In it (combine (seq 0 M) ts) -> In (snd it) ts.
Proof. destruct it as [i t]. intros H. apply in_combine_r in H. auto. Qed.

Lemma cost_length : length (m_data C) = M * (N + 2 * M).
Proof.
  unfold C, cost_of. cbn [m_data]. rewrite (flat_map_width _ (N + 2 * M)).
  - rewrite combine_length, seq_length. fold M. lia.
  - intros it H. apply row_length. apply combine_in. auto.
Qed.

Lemma cost_entry i j : i < M -> j < N + 2 * M ->
  entry NaN C i j = nth j (cost_row M i (nth i ts no_target)) NaN.
Proof.
  intros Hi Hj. unfold entry, C, cost_of. cbn [m_ord m_data m_cols]. fold M.
  rewrite (flat_map_nth _ (N + 2 * M) _ i j (0, no_target)); auto.
  - rewrite combine_nth by (rewrite seq_length; auto). cbn [fst snd]. rewrite seq_nth by auto. auto.
  - intros it H. apply row_length. apply combine_in. auto.
  - rewrite combine_length, seq_length. fold M. lia.
Qed.

Lemma cost_row_cases i t x : valid_target N t -> In x (cost_row M i t) -> is_fin x \/ x = PInf.
Proof.
  intros ((H0 & H1) & Hl & Hlik & Hm) Hx. unfold cost_row in Hx. rewrite !in_app_iff, !in_map_iff in Hx.
  destruct Hx as [(l & <- & Hin)|[(k & <- & Hk)|(k & <- & Hk)]].
  - apply nlog_cases. apply Rmult_le_pos; auto.
  - destruct (k =? i); [apply nlog_cases; apply Rmult_le_pos; auto|left; eexists; reflexivity].
  - destruct (k =? i); [left; apply false_target_fin; auto|left; eexists; reflexivity].
Qed.

Lemma cost_ok : cost_matrix C.
Proof.
  split; [apply cost_length|]. intros x Hx. unfold C, cost_of in Hx. cbn [m_data] in Hx.
  apply in_flat_map in Hx. destruct Hx as (it & Hit & Hx).
  apply (cost_row_cases (fst it) (snd it)); auto. apply Hts. apply combine_in. auto.
Qed.

(** Every target is absent: always possible. *)
Lemma absent_feasible : feasible C (map (fun i => N + M + i) (seq 0 M)).
Proof.
  assert (Hnth : forall i, i < M -> nth i (map (fun i => N + M + i) (seq 0 M)) 0 = N + M + i).
  { intros i Hi. rewrite nth_indep with (d' := N + M + 0) by (rewrite map_length, seq_length; auto).
    rewrite (map_nth (fun i => N + M + i)). rewrite seq_nth by auto. lia. }
  split.
  - split; [rewrite map_length, seq_length; auto|]. split.
    + apply FinFun.Injective_map_NoDup; [intros a b; lia|apply seq_NoDup].
    + intros j Hj. apply in_map_iff in Hj. destruct Hj as (i & <- & Hi). apply in_seq in Hi.
      unfold C, cost_of. cbn [m_cols]. fold M. lia.
  - intros i Hi. unfold C, cost_of in Hi. cbn [m_rows] in Hi. fold M in Hi. rewrite Hnth by auto.
    rewrite cost_entry by lia. set (t := nth i ts no_target).
    assert (Hin : In t ts) by (apply nth_In; auto).
    destruct (Hts t Hin) as ((_ & H1) & Hl & _). unfold cost_row.
    rewrite app_nth2 by (rewrite map_length; lia). rewrite map_length.
    rewrite app_nth2 by (rewrite map_length, seq_length; lia). rewrite map_length, seq_length.
    replace (N + M + i - length (t_lik t) - M) with i by lia.
    rewrite nth_indep with (d' := (fun k => if k =? i then false_target (t_r t) else Fin lmb_inf) 0)
      by (rewrite map_length, seq_length; auto).
    rewrite (map_nth (fun k => if k =? i then false_target (t_r t) else Fin lmb_inf)).
    rewrite seq_nth by auto. simpl Nat.add. rewrite Nat.eqb_refl. apply false_target_fin. auto.
Qed.
End Matrix.

(** * The loop over the hypotheses *)
Section Loop.
Variable expf : R -> R.
Variable pick : nat -> list (mstate (T := ext R)) -> nat.
Hypothesis Hpick : valid_pick pick.
Variables w_lim nhyp_max : R.
Variables (N : nat) (ts : list target_in).
Hypothesis Hts : forall t, In t ts -> valid_target N t.
Hypothesis HM : 0 < length ts <= 30.
Let M := length ts.
Let C := cost_of N ts.

Definition W (s : list nat) : R := expf (- total C s).
Definition mass (ds : list (list nat)) (i j : nat) : R :=
  sumf (fun s => if says N i j s then W s else 0%R) ds.

(** [Rm] is the table of the hypotheses [ds]. *)
Definition table (ds : list (list nat)) (Rm : list R) : Prop :=
  length Rm = M * (N + 1) /\
  forall i j, i < M -> j <= N -> nth (i * (N + 1) + j) Rm 0%R = mass ds i j.

Lemma cell_lt i j : i < M -> j <= N -> i * (N + 1) + j < M * (N + 1).
Proof. intros. nia. Qed.
Lemma cell_inj i j i' j' : j <= N -> j' <= N -> i * (N + 1) + j = i' * (N + 1) + j' -> i = i' /\ j = j'.
Proof. intros. assert (i = i') by nia. subst. split; lia. Qed.

Lemma add_hyp_spec ds Rm s : table ds Rm -> length s = M ->
  wp False (add_hyp N M (W s) (map Some s) Rm) (table (ds ++ [s])).
Proof.
  intros [Hlen Hcell] Hs. unfold add_hyp.
  assert (Hadd : forall i j, mass (ds ++ [s]) i j = (mass ds i j + if says N i j s then W s else 0)%R).
  { intros i j. unfold mass. rewrite sumf_app, sumf_cons, sumf_nil. lra. }
  eapply wp_conseq.
  { apply (wp_for False M 0 _ (fun k (Rm' : list R) => length Rm' = M * (N + 1) /\
      forall i j, i < M -> j <= N -> nth (i * (N + 1) + j) Rm' 0%R =
        if i <? k then mass (ds ++ [s]) i j else mass ds i j)).
    - split; auto.
    - intros k Rm' Hk [Hl Hc]. assert (Hk' : k < M) by lia.
      rewrite (get_ok _ _ (Some 0)) by (rewrite map_length; lia). cbn [bind]. rewrite map_nth.
      set (v := nth k s 0) in *.
      assert (Hsays : forall j, j <= N -> says N k j s = if j <? N then v =? j else v =? N + k).
      { intros j _. reflexivity. }
      assert (Hupd : forall j0, j0 <= N -> (forall j, j <= N -> says N k j s = (j =? j0)) ->
        wp False (x <- get Rm' (k * (N + 1) + j0);; set Rm' (k * (N + 1) + j0) (x + W s)%R)
          (fun Rm2 => length Rm2 = M * (N + 1) /\
            forall i j, i < M -> j <= N -> nth (i * (N + 1) + j) Rm2 0%R =
              if i <? S k then mass (ds ++ [s]) i j else mass ds i j)).
      { intros j0 Hj0 Hs0. pose proof (cell_lt k j0 Hk' Hj0) as Hb.
        rewrite (get_ok _ _ 0%R) by lia. cbn [bind]. rewrite set_ok by lia. apply wp_ret.
        split; [rewrite upd_length; auto|]. intros i j Hi Hj.
        destruct (Nat.eq_dec (i * (N + 1) + j) (k * (N + 1) + j0)) as [E|Hne].
        - apply cell_inj in E; auto. destruct E as [-> ->]. rewrite nth_upd_eq by lia.
          rewrite Hc by auto. rewrite Nat.ltb_irrefl.
          replace (k <? S k) with true by (symmetry; apply Nat.ltb_lt; lia).
          rewrite Hadd, Hs0 by auto. rewrite Nat.eqb_refl. auto.
        - rewrite nth_upd_neq by auto. rewrite Hc by auto.
          destruct (Nat.ltb_spec i k), (Nat.ltb_spec i (S k)); auto; try lia.
          assert (i = k) by lia. subst i. rewrite Hadd, Hs0 by auto.
          destruct (Nat.eqb_spec j j0); [subst; lia|lra]. }
      destruct (Nat.ltb_spec v N) as [Hv|Hv].
      + apply Hupd; [lia|]. intros j Hj. rewrite Hsays by auto. destruct (Nat.ltb_spec j N).
        * apply eq_true_iff_eq. rewrite !Nat.eqb_eq. split; auto.
        * transitivity false; [|symmetry]; apply Nat.eqb_neq; lia.
      + destruct (Nat.eqb_spec v (N + k)) as [Hvk|Hvk].
        * apply Hupd; [lia|]. intros j Hj. rewrite Hsays by auto. destruct (Nat.ltb_spec j N).
          -- transitivity false; [|symmetry]; apply Nat.eqb_neq; lia.
          -- destruct (Nat.eqb_spec v (N + k)), (Nat.eqb_spec j N); auto; lia.
        * apply wp_ret. split; auto. intros i j Hi Hj. rewrite Hc by auto.
          destruct (Nat.ltb_spec i k), (Nat.ltb_spec i (S k)); auto; try lia.
          assert (i = k) by lia. subst i. rewrite Hadd, Hsays by auto.
          destruct (Nat.ltb_spec j N).
          -- destruct (Nat.eqb_spec v j); [lia|lra].
          -- destruct (Nat.eqb_spec v (N + k)); [lia|lra]. }
  intros Rm' [Hl Hc]. split; auto. intros i j Hi Hj. rewrite Hc by auto.
  replace (i <? 0 + M) with true by (symmetry; apply Nat.ltb_lt; lia). auto.
Qed.

(** What holds of the hypotheses used. *)
Record hyps (ds : list (list nat)) : Prop := {
  hy_f : forall d, In d ds -> feasible C d;
  hy_nd : NoDup ds;
  hy_best : forall d s, In d ds -> feasible C s -> ~ In s ds -> (total C d <= total C s)%R;
  hy_max : length ds <= 1 \/ (INR (length ds - 1) < nhyp_max)%R }.

Definition stopped (ds : list (list nat)) : Prop :=
  (forall s, feasible C s -> In s ds) \/
  (exists pre d, ds = pre ++ [d] /\ (below w_lim (W d) (sumf W ds) = true \/ nhyp_max <= INR (length ds))%R).

Definition loop_post (a : nat * R * list R) : Prop :=
  let '(n, ws, Rm) := a in
  exists ds, hyps ds /\ stopped ds /\ n = length ds /\ ws = sumf W ds /\ table ds Rm.

Lemma NoDup_snoc {A} (l : list A) x : NoDup l -> ~ In x l -> NoDup (l ++ [x]).
Proof.
  intros H1 H2. apply (Permutation.Permutation_NoDup (Permutation.Permutation_cons_append l x)).
  constructor; auto.
Qed.

Lemma cols_pos : 0 < m_cols C.
Proof. unfold C, cost_of. cbn [m_cols]. lia. Qed.

Lemma hyps_bound ds : hyps ds -> length ds <= m_cols C ^ m_rows C.
Proof.
  intros H. rewrite <- (all_lists_length C (proj2 HM) (proj1 HM) cols_pos). apply NoDup_incl_length; [apply H|].
  intros d Hd. destruct (hy_f _ H d Hd) as [(H1 & _ & H2) _]. rewrite <- H1. apply (all_lists_in C (proj2 HM) (proj1 HM) cols_pos). auto.
Qed.

Lemma hyp_loop_spec rounds : forall mu ds Rm,
  minv C mu ds -> hyps ds -> (ds = [] \/ INR (length ds) < nhyp_max)%R -> table ds Rm ->
  (forall fuel, wp True (hyp_loop expf pick w_lim nhyp_max rounds fuel N M mu (length ds) (sumf W ds) Rm) loop_post) /\
  (m_cols C ^ m_rows C < length ds + rounds -> exists f0 a, forall fuel, f0 <= fuel ->
     hyp_loop expf pick w_lim nhyp_max rounds fuel N M mu (length ds) (sumf W ds) Rm = Ok a).
Proof.
  induction rounds as [|rounds IH]; intros mu ds Rm Hmu Hh Hmax Htab.
  - split; [intros; exact I|]. pose proof (hyps_bound ds Hh). lia.
  - assert (Hdraw := minv_draw C (cost_ok N ts Hts) (proj2 HM) eq_refl (proj1 HM) cols_pos pick Hpick mu ds Hmu).
    assert (Hstep : forall o mu' sg, next_draw C ds (o, mu') -> o = Some (Fin (total C sg), map Some sg) ->
      feasible C sg -> ~ In sg ds ->
      (forall d, In d ds -> (total C d <= total C sg)%R) ->
      (forall s, feasible C s -> ~ In s ds -> (total C sg <= total C s)%R) ->
      hyps (ds ++ [sg])).
    { intros o mu' sg _ _ Hf Hn Hle Hbest. constructor.
      - intros d Hd. apply in_app_iff in Hd. destruct Hd as [Hd|[<-|[]]]; auto. apply Hh; auto.
      - apply NoDup_snoc; auto. apply Hh.
      - intros d s Hd Hs Hns. rewrite in_app_iff in Hns.
        apply in_app_iff in Hd. destruct Hd as [Hd|[<-|[]]].
        + apply (hy_best _ Hh); auto.
        + apply Hbest; auto.
      - rewrite app_length. simpl. replace (length ds + 1 - 1) with (length ds) by lia.
        destruct Hmax as [->|H]; auto. }
    assert (Hsum : forall sg, sumf W (ds ++ [sg]) = (sumf W ds + expf (- total C sg))%R).
    { intros sg. rewrite sumf_app, sumf_cons, sumf_nil. unfold W at 2. lra. }
    assert (Hlen : forall sg : list nat, length (ds ++ [sg]) = S (length ds)) by (intros; rewrite app_length; simpl; lia).
    split.
    + intros fuel. cbn [hyp_loop]. apply wp_bind. eapply wp_conseq; [apply Hdraw|].
      intros [o mu'] Hnd. pose proof Hnd as Hnd0. unfold next_draw in Hnd. cbn [fst snd] in Hnd.
      destruct o as [[cst sol]|].
      * destruct Hnd as (sg & -> & Hf & -> & Hn & Hle & Hbest & Hmu').
        pose proof (Hstep _ _ sg Hnd0 eq_refl Hf Hn Hle Hbest) as Hh'.
        apply wp_bind. eapply wp_mono; [apply (add_hyp_spec ds Rm sg Htab)| |].
        { apply Hf. } { tauto. }
        intros Rm' Htab'. rewrite <- Hsum, <- Hlen with (sg := sg).
        destruct (below w_lim (expf (- total C sg)) (sumf W (ds ++ [sg])) || Rleb nhyp_max (INR (length (ds ++ [sg])))) eqn:E.
        -- apply wp_ret. exists (ds ++ [sg]). split; auto. split; auto. right. exists ds, sg. split; auto.
           apply orb_true_iff in E. destruct E as [E|E]; auto. right.
           destruct (Rleb_spec nhyp_max (INR (length (ds ++ [sg])))); auto. discriminate.
        -- apply orb_false_iff in E. destruct E as [_ E].
           apply (IH mu' (ds ++ [sg]) Rm'); auto. right.
           destruct (Rleb_spec nhyp_max (INR (length (ds ++ [sg])))); [discriminate|lra].
      * apply wp_ret. exists ds. split; auto. split; auto. left. auto.
    + intros Hr. destruct Hdraw as [Hd1 (f0 & [o mu'] & Hd2)].
      assert (Hnd : next_draw C ds (o, mu')).
      { specialize (Hd1 f0). rewrite Hd2 in Hd1 by lia. exact Hd1. }
      pose proof Hnd as Hnd0. unfold next_draw in Hnd. cbn [fst snd] in Hnd.
      destruct o as [[cst sol]|].
      * destruct Hnd as (sg & -> & Hf & -> & Hn & Hle & Hbest & Hmu').
        pose proof (Hstep _ _ sg Hnd0 eq_refl Hf Hn Hle Hbest) as Hh'.
        pose proof (add_hyp_spec ds Rm sg Htab (proj1 (proj1 Hf))) as Hadd.
        destruct (add_hyp N M (W sg) (map Some sg) Rm) as [Rm'| |] eqn:Ea; simpl in Hadd; try tauto.
        destruct (below w_lim (expf (- total C sg)) (sumf W (ds ++ [sg])) || Rleb nhyp_max (INR (length (ds ++ [sg])))) eqn:E.
        -- exists f0. eexists. intros fuel Hfu. cbn [hyp_loop]. rewrite Hd2 by auto. cbn [bind].
           unfold W in Ea. rewrite Ea. cbn [bind]. rewrite <- Hsum, <- Hlen with (sg := sg). rewrite E. reflexivity.
        -- pose proof E as E0. apply orb_false_iff in E. destruct E as [_ E].
           destruct (proj2 (IH mu' (ds ++ [sg]) Rm' Hmu' Hh'
             ltac:(right; destruct (Rleb_spec nhyp_max (INR (length (ds ++ [sg])))); [discriminate|lra]) Hadd))
             as (f1 & a & Hf1); [rewrite Hlen; lia|].
           exists (Nat.max f0 f1), a. intros fuel Hfu. cbn [hyp_loop]. rewrite Hd2 by lia. cbn [bind].
           unfold W in Ea. rewrite Ea. cbn [bind]. rewrite <- Hsum, <- Hlen with (sg := sg). rewrite E0.
           apply Hf1. lia.
      * exists f0. eexists. intros fuel Hfu. cbn [hyp_loop]. rewrite Hd2 by auto. reflexivity.
Qed.

Lemma hyp_loop_mono rounds k fuel mu : forall n ws Rm a,
  hyp_loop expf pick w_lim nhyp_max rounds fuel N M mu n ws Rm = Ok a ->
  hyp_loop expf pick w_lim nhyp_max (rounds + k) fuel N M mu n ws Rm = Ok a.
Proof.
  revert mu. induction rounds as [|rounds IH]; intros mu n ws Rm a H; [discriminate|].
  cbn [hyp_loop Nat.add] in *. destruct (draw extR pick fuel mu) as [[o mu']| |]; cbn [bind] in *; try discriminate.
  destruct o as [[cst sol]|]; auto. destruct cst; auto.
  destruct (add_hyp N M (expf (- a0)) sol Rm) as [Rm'| |]; cbn [bind] in *; try discriminate.
  destruct (below _ _ _ || _); auto.
Qed.

Lemma table_nil : table [] (repeat 0%R (M * (N + 1))).
Proof.
  split; [apply repeat_length|]. intros i j Hi Hj. apply nth_repeat.
Qed.

Lemma associate_spec : spec (fun fuel => associate expf pick w_lim nhyp_max fuel N ts) loop_post.
Proof.
  unfold associate. fold C M.
  destruct (minv_new C (cost_ok N ts Hts) (proj2 HM) eq_refl (proj1 HM) cols_pos) as (mu & -> & Hmu).
  cbn [bind].
  assert (Hh : hyps []).
  { constructor; simpl; try tauto; auto. constructor. }
  split.
  - intros fuel. apply (proj1 (hyp_loop_spec fuel mu [] _ Hmu Hh (or_introl eq_refl) table_nil)).
  - set (B := S (m_cols C ^ m_rows C)).
    destruct (proj2 (hyp_loop_spec B mu [] _ Hmu Hh (or_introl eq_refl) table_nil)) as (f0 & a & H).
    { unfold B. simpl. lia. }
    exists (Nat.max f0 B), a. intros fuel Hfu. replace fuel with (B + (fuel - B)) at 1 by lia.
    apply hyp_loop_mono. apply H. lia.
Qed.

(** At least one hypothesis is used. *)
Lemma hyps_nonempty ds : stopped ds -> ds <> [].
Proof.
  intros [H|(pre & d & -> & _)].
  - specialize (H _ (absent_feasible N ts Hts)). intros ->. destruct H.
  - destruct pre; discriminate.
Qed.
End Loop.
