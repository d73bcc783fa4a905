(** Murty's algorithm with rounded arithmetic: solving and partitioning states. *)
From Coq Require Import List Arith Bool Lia ZArith Reals Lra Permutation.
From Flocq Require Import Core.
Import ListNotations.
From Verif Require Import Res Scalar Lap LapSpec LapBase LapMain Murty MurtyBase MurtySub MurtyDual MurtyProofs.
From Verif Require Import FloatBase FloatExt LapRnd LapRndArr LapRndDij LapFloatMain LapErrDij LapErrMain.
Local Open Scope nat_scope.
Notation val := LapSpec.val.

Lemma rinsert_perm a l : Permutation (insert_desc roundN a l) (a :: l).
Proof.
  induction l as [|b l IH]; simpl; auto. destruct (tuple_lt roundN a b); auto.
  rewrite IH. apply perm_swap.
Qed.
Lemma rsort_perm l : Permutation (sort_desc roundN l) l.
Proof. induction l as [|a l IH]; simpl; auto. rewrite rinsert_perm. auto. Qed.

(** The rounding error of one sum of costs up to 2^b. *)
Definition eta (b : Z) : R := bpow radix2 (b - 48).

Lemma total_abs (M' : matrix (ext R)) B s : m_ord M' = RowMajor -> cost_matrix M' ->
  (forall x, In (Fin x) (m_data M') -> (Rabs x <= B)%R) -> feasible M' s ->
  (Rabs (total M' s) <= INR (m_rows M') * B)%R.
Proof.
  intros Ho [Hl _] HB [(Hls & _ & Hr) Hf]. unfold total.
  assert (G : forall k, k <= m_rows M' -> (Rabs (Rsum (map (fun i => val (entry NaN M' i (nth i s O))) (seq 0 k))) <= INR k * B)%R).
  { induction k as [|k IH]; intros Hk; [simpl; rewrite Rabs_R0; lra|].
    rewrite seq_S, map_app, Rsum_app, S_INR. simpl. rewrite Rplus_0_r.
    eapply Rle_trans; [apply Rabs_triang|].
    destruct (Hf k ltac:(lia)) as [x Ex]. rewrite Ex. cbn [LapSpec.val].
    assert (Rabs x <= B)%R.
    { apply HB. rewrite <- Ex. unfold entry. rewrite Ho. apply nth_In. rewrite Hl. apply index_lt; [lia|].
      apply Hr, nth_In. lia. }
    specialize (IH ltac:(lia)). lra. }
  apply G. auto.
Qed.

(** How sums are rounded: those of [grid] numbers up to 32 m 2^b are off by at most
    [dl], those up to 32 2^b by at most [et]. *)
Record sums (m : nat) (b : Z) (dl et : R) (grid : R -> Prop) : Prop := {
  su_ar : arith m (bpow radix2 b) dl grid;
  su_et : (0 <= et /\ 281474976710656 * et <= bpow radix2 b)%R;
  su_add : forall x y, grid x -> grid y -> (Rabs (x + y) <= 32 * bpow radix2 b)%R ->
    nadd roundN (Fin x) (Fin y) = Fin (rnd (x + y)) /\ grid (rnd (x + y)) /\ (Rabs (rnd (x + y) - (x + y)) <= et)%R }.

Lemma sums_any m b : (Z.of_nat m < 100000)%Z -> (-900 <= b <= 300)%Z ->
  sums m b (unit_err m (bpow radix2 b)) (eta b) (fun _ => True).
Proof.
  intros Hm Hb. constructor.
  - apply arith_any; auto. split; [apply bpow_le; lia|]. unfold Bd. apply bpow_le. lia.
  - split; [apply bpow_ge_0|]. unfold eta. change 281474976710656%R with (bpow radix2 48). rewrite <- bpow_plus.
    apply bpow_le. lia.
  - intros x y _ _ H. change 32%R with (bpow radix2 5) in H. rewrite <- bpow_plus in H.
    split; [apply (radd_FF _ _ (5 + b)); [lia|auto]|]. split; auto. unfold eta. replace (b - 48)%Z with (5 + b - 53)%Z by lia.
    apply rnd_err; [lia|auto].
Qed.

Lemma sums_grid m b q : 0 < m -> (-1074 <= q <= 247)%Z -> (q <= b <= 300)%Z -> (32 * Z.of_nat m * 2 ^ (b - q) < 2 ^ 53)%Z ->
  sums m b 0 0 (fun x => exists z, x = (IZR z * bpow radix2 q)%R).
Proof.
  intros Hm Hq Hb Hs.
  assert (Hp : (0 < 2 ^ (b - q))%Z) by (apply Z.pow_pos_nonneg; lia).
  assert (E : (IZR (2 ^ (b - q)) * bpow radix2 q = bpow radix2 b)%R).
  { rewrite (IZR_Zpower radix2) by lia. rewrite <- bpow_plus. f_equal. lia. }
  assert (Hp53 : (2 ^ (b - q) < 2 ^ 53)%Z).
  { eapply Z.le_lt_trans; [|exact Hs]. rewrite <- (Z.mul_1_l (2 ^ (b - q))) at 1. apply Z.mul_le_mono_nonneg_r; lia. }
  assert (HA : arith m (bpow radix2 b) 0 (fun x => exists z, x = (IZR z * bpow radix2 q)%R)).
  { rewrite <- E. apply arith_grid; auto; lia. }
  constructor; auto.
  - pose proof (bpow_ge_0 radix2 b). lra.
  - intros x y Hx Hy H. apply HA; auto. eapply Rle_trans; [exact H|].
    assert (1 <= INR m)%R by (change 1%R with (INR 1); apply le_INR; lia). pose proof (bpow_ge_0 radix2 b).
    apply Rmult_le_compat_r; lra.
Qed.

Lemma wp_and {A} F (x : res A) P Q : wp F x P -> wp F x Q -> wp F x (fun a => P a /\ Q a).
Proof. destruct x; simpl; auto. Qed.

Section Main.
Variable C0 : matrix (ext R).
Hypothesis HC0 : cost_matrix C0.
Hypothesis Hrows : m_rows C0 <= 30.
Hypothesis Hcols : (Z.of_nat (m_cols C0) < 100000)%Z.
Hypothesis Hord : m_ord C0 = RowMajor.
(** All finite entries are at most 2^b. *)
Variable b : Z.
Hypothesis Hb : (-900 <= b <= 300)%Z.
Hypothesis Hcost : forall x, In (Fin x) (m_data C0) -> (Rabs x <= bpow radix2 b)%R.
Variables (dl et : R) (grid : R -> Prop).
Hypothesis Hsums : sums (m_cols C0) b dl et grid.
Hypothesis Hgrid : forall x, In (Fin x) (m_data C0) -> grid x.
Let n := m_rows C0.
Let m := m_cols C0.
Notation state := (mstate (T := ext R)).
Notation e := (e C0).
Notation rl := (rl C0).
Notation cl := (cl C0).
Notation sub := (sub C0).
Notation okB := (okB C0).
Notation sumB := (sumB C0).
Notation agrees := (agrees C0).

Let bb := bpow radix2 b.
Let bb_pos : (0 < bb)%R := bpow_gt_0 radix2 b.
Let HA : arith m bb dl grid := su_ar _ _ _ _ _ Hsums.

Lemma e_bound r c x : r < n -> c < m -> e r c = Fin x -> (Rabs x <= bb)%R /\ grid x.
Proof.
  intros Hr Hc E. assert (In (Fin x) (m_data C0)); [|auto]. rewrite <- E. unfold MurtySub.e, entry. rewrite Hord. apply nth_In.
  rewrite (proj1 HC0). apply index_lt; auto.
Qed.

(** One more term of a sum of at most 30 terms. *)
Lemma sum_step k y s x : k < 30 -> grid y -> grid x ->
  (Rabs (y - s) <= INR k * et)%R -> (Rabs s <= INR k * bb)%R -> (Rabs x <= bb)%R ->
  exists z, nadd roundN (Fin y) (Fin x) = Fin z /\ grid z /\ (Rabs (z - (s + x)) <= INR (S k) * et)%R /\
    (Rabs (s + x) <= INR (S k) * bb)%R.
Proof.
  intros Hk Gy Gx Hy Hs Hx. destruct (su_et _ _ _ _ _ Hsums) as [Hp E]. fold bb in E.
  assert (Hk' : (INR k <= 29)%R) by (replace 29%R with (INR 29) by (simpl; lra); apply le_INR; lia).
  assert (Hk0 : (0 <= INR k)%R) by apply pos_INR.
  assert (H1 : (INR k * et <= 29 * et)%R) by (apply Rmult_le_compat_r; lra).
  assert (H2 : (INR k * bb <= 29 * bb)%R) by (apply Rmult_le_compat_r; lra).
  assert (Hm : (Rabs (y + x) <= 32 * bb)%R).
  { apply Rabs_le. apply Rabs_le_inv in Hy. apply Rabs_le_inv in Hs. apply Rabs_le_inv in Hx. lra. }
  destruct (su_add _ _ _ _ _ Hsums y x Gy Gx Hm) as (Ez & Gz & He).
  exists (rnd (y + x)). split; auto. split; auto.
  rewrite S_INR. split.
  - apply Rabs_le_inv in He. apply Rabs_le_inv in Hy. apply Rabs_le. lra.
  - apply Rabs_le_inv in Hs. apply Rabs_le_inv in Hx. apply Rabs_le. lra.
Qed.

Lemma sub_bound B X x : In (Fin x) (m_data (sub B X)) -> (Rabs x <= bb)%R /\ grid x.
Proof.
  unfold MurtySub.sub. cbn [m_data]. intros Hx. apply in_map_iff in Hx. destruct Hx as ([r c] & E & Hin).
  apply in_prod_iff in Hin. destruct Hin as [Hr Hc]. apply (in_rl C0 Hrows) in Hr. apply (in_cl C0 Hrows) in Hc.
  unfold ecell in E. simpl in E. destruct (inp X r c); [discriminate|]. apply (e_bound r c); tauto.
Qed.

Lemma sub_Bd B X x : In (Fin x) (m_data (sub B X)) -> (Rabs x <= Bd)%R.
Proof.
  intros H. eapply Rle_trans; [apply (sub_bound B X x H)|]. unfold bb, Bd. apply bpow_le. lia.
Qed.

Lemma cl_length B : length (cl B) <= m.
Proof.
  unfold MurtySub.cl, leftover. fold m. rewrite <- (seq_length m 0) at 2. generalize (seq 0 m). intros l.
  induction l; simpl; auto. destruct (notin (map snd B) a); simpl; lia.
Qed.

Lemma sub_cols B X : (Z.of_nat (m_cols (sub B X)) < 100000)%Z.
Proof. simpl. pose proof (cl_length B). unfold m in *. lia. Qed.

Lemma B_length B X : okB B X -> length B + length (rl B) = n.
Proof.
  intros HB. assert (Hp : Permutation (seq 0 n) (map fst B ++ rl B)).
  { apply leftover_perm; [apply HB|]. intros r Hr. apply in_map_iff in Hr.
    destruct Hr as ([r' c] & <- & Hr). apply HB in Hr. tauto. }
  apply Permutation_length in Hp. rewrite seq_length, app_length, map_length in Hp. lia.
Qed.

Record wrep (st : state) (B X : pairs) : Prop := {
  wr_ok : okB B X;
  wr_C : s_C st = sub B X;
  wr_r : s_rmap st = rl B;
  wr_c : s_cmap st = cl B;
  wr_lu : length (s_u st) = length (rl B);
  wr_lv : length (s_v st) = length (cl B);
  wr_ls : length (s_sol st) = n;
  wr_sol : forall r c, In (r, c) B -> nth r (s_sol st) None = Some c;
  wr_bound : exists y, s_bound st = Fin y /\ grid y /\ (Rabs (y - sumB B) <= INR (length B) * et)%R /\
               (Rabs (sumB B) <= INR (length B) * bb)%R }.

Record wsolvedst (st : state) (B X : pairs) (t sg : list nat) : Prop := {
  ws_feas : feasible (sub B X) t;
  ws_res : s_res st = map Some t;
  ws_duals : wsolved (length (rl B)) (length (cl B)) (m_data (sub B X)) (map Some t) (s_u st) (s_v st);
  ws_ag : agrees B t sg;
  ws_sol : s_sol st = map Some sg;
  ws_cost : exists y, s_cost st = Fin y /\ grid y /\ (Rabs (y - total C0 sg) <= INR n * et)%R;
  ws_e : esolved (length (rl B)) (length (cl B)) (m_data (sub B X)) bb dl grid (map Some t) (s_v st) }.

(** How far the cost of a state that is not solved yet can be above the totals of its members. *)
Definition kerr : R := lap_err n dl + 4 * dl + INR n * et.
Definition keyed (st : state) (B X : pairs) : Prop :=
  exists y, s_cost st = Fin y /\ forall s, feasible C0 s -> memb (B, X) s = true -> (y <= total C0 s + kerr)%R.

Definition wokst (p : state * (pairs * pairs)) : Prop :=
  let '(st, (B, X)) := p in
  wrep st B X /\ (s_solved st = true -> exists t sg, wsolvedst st B X t sg) /\ (s_solved st = false -> keyed st B X).

Lemma wsolved_sol st B X t sg : wrep st B X -> wsolvedst st B X t sg ->
  feasible C0 sg /\ memb (B, X) sg = true.
Proof.
  intros Hrep Hs. apply (local_global C0 Hrows B X t sg (wr_ok _ _ _ Hrep) (ws_ag _ _ _ _ _ Hs) (ws_feas _ _ _ _ _ Hs)).
Qed.

Lemma rl_length' B : length (rl B) <= n.
Proof. apply (rl_length C0); auto. Qed.

Let sub_ar B X : arith (m_cols (sub B X)) bb dl grid.
Proof. eapply arith_le; [|exact HA]. apply cl_length. Qed.

(** Members of a solved state cost at least as much as the solution, up to rounding. *)
Lemma wsolved_near st B X t sg s : wrep st B X -> wsolvedst st B X t sg -> feasible C0 s -> memb (B, X) s = true ->
  (total C0 sg <= total C0 s + lap_err n dl)%R.
Proof.
  intros Hrep Hs Hf Hm. pose proof (wr_ok _ _ _ Hrep) as HB.
  destruct (global_local C0 Hrows B X s HB Hf Hm) as [Hag Hfl].
  rewrite (total_split C0 Hrows B X t sg HB (ws_ag _ _ _ _ _ Hs) (ws_feas _ _ _ _ _ Hs)).
  rewrite (total_split C0 Hrows B X _ s HB Hag Hfl).
  pose proof (esolved_near (sub B X) (sub_rows C0 Hrows B X) eq_refl bb dl grid (sub_ar B X) (s_v st) t (localize C0 B s)
    (ws_e _ _ _ _ _ Hs) (ws_feas _ _ _ _ _ Hs) Hfl) as H. cbn [m_rows MurtySub.sub] in H.
  destruct (lap_err_mono (length (rl B)) n dl (proj1 (ar_dl _ _ _ _ HA)) (rl_length' B)). lra.
Qed.

Lemma wokst_cost p : wokst p -> exists x, s_cost (fst p) = Fin x /\
  forall s, feasible C0 s -> memb (snd p) s = true -> (x <= total C0 s + kerr)%R.
Proof.
  destruct p as [st [B X]]. intros (Hrep & Hs & Hk). simpl fst. simpl snd.
  destruct (s_solved st) eqn:E; [|apply Hk; auto]. destruct (Hs eq_refl) as (t & sg & Hss).
  destruct (ws_cost _ _ _ _ _ Hss) as (y & Ey & _ & Hy). exists y. split; auto. intros s Hf Hm.
  pose proof (wsolved_near st B X t sg s Hrep Hss Hf Hm). apply Rabs_le_inv in Hy. unfold kerr.
  destruct (ar_dl _ _ _ _ HA). lra.
Qed.

(** ** solve *)
Lemma rlap_total B X : exists f0 a, forall fuel, f0 <= fuel -> lap roundN fuel (sub B X) = Ok a.
Proof.
  apply (rlap_build_total (sub B X)); [apply sub_cost; auto|apply sub_rows; auto|apply sub_cols|reflexivity|].
  intros x Hx. eapply sub_Bd; eauto.
Qed.

Lemma wsolve_spec st B X : wrep st B X ->
  spec (fun fuel => solve roundN fuel st)
    (fun '(st', ok) =>
       if ok : bool then wokst (st', (B, X)) /\ s_solved st' = true
       else forall s, feasible C0 s -> memb (B, X) s = false).
Proof.
  intros Hrep. unfold solve.
  pose proof (wr_C _ _ _ Hrep) as EC. pose proof (wr_ok _ _ _ Hrep) as HB.
  pose proof (B_length B X HB) as HBl.
  eapply (spec_bind (fun fuel => lap roundN fuel (s_C st)) (fun r _ => _)).
  { rewrite EC. split.
    - intros fuel. apply wp_and.
      + apply (rlap_build_spec (sub B X)); [apply sub_cost; auto|apply sub_rows; auto|apply sub_cols|reflexivity|].
        intros x Hx. eapply sub_Bd; eauto.
      + apply (elap_build (sub B X)) with (B := bb) (dl := dl) (grid := grid);
          [apply sub_cost; auto|apply sub_rows; auto|apply sub_cols|reflexivity|apply sub_ar|apply sub_bound].
    - apply rlap_total. }
  intros r Hr. apply spec_pure. cbv beta in Hr. destruct Hr as [Hr He].
  destruct Hr as [(t & Hok & Hrs & Hft & Hws)|(Hbad & Hno)].
  - specialize (He Hok). rewrite Hrs in He. rewrite Hok. pose proof Hft as [(Hlt & Hndt & Hrt) Hfin].
    cbn [m_rows m_cols MurtySub.sub] in Hlt, Hrt, Hfin.
    destruct (wr_bound _ _ _ Hrep) as (y0 & Ey0 & Gy0 & Hy0 & Hy0').
    set (part := fun k => Rplus (sumB B) (Rsum (map (fun a => val (entry NaN (sub B X) a (nth a t 0))) (seq 0 k)))).
    apply wp_bind. eapply wp_conseq.
    { apply (wp_for False (length (l_rowsol r)) 0 _ (fun k (sc : list (option nat) * ext R) =>
        length (fst sc) = n /\
        (forall r c, In (r, c) B -> nth r (fst sc) None = Some c) /\
        (forall a, a < k -> nth (nth a (rl B) 0) (fst sc) None = Some (nth (nth a t 0) (cl B) 0)) /\
        exists y, snd sc = Fin y /\ grid y /\ (Rabs (y - part k) <= INR (length B + k) * et)%R /\
          (Rabs (part k) <= INR (length B + k) * bb)%R)).
      - simpl. split; [apply Hrep|]. split; [apply Hrep|]. split; [intros; lia|].
        exists y0. unfold part. simpl. rewrite Rplus_0_r, Nat.add_0_r. auto.
      - intros k [sol cost] Hk (I1 & I2 & I3 & (y & I4 & G4 & I5 & I6)). simpl fst in *. simpl snd in *.
        rewrite Hrs in Hk |- *. rewrite map_length in Hk.
        assert (Hkr : k < length (rl B)) by lia.
        rewrite (get_ok _ _ (Some 0)) by (rewrite map_length; lia). cbn [bind].
        rewrite map_nth. cbn [idx bind].
        assert (Hj : nth k t 0 < length (cl B)) by (apply Hrt, nth_In; lia).
        rewrite (wr_r _ _ _ Hrep), (wr_c _ _ _ Hrep).
        rewrite (get_ok _ _ 0) by auto. cbn [bind]. rewrite (get_ok _ _ 0) by auto. cbn [bind].
        destruct (rl_in C0 B k Hkr) as [Hrn Hrb]. fold n in Hrn.
        destruct (cl_in C0 B _ Hj) as [Hcm _]. fold m in Hcm.
        rewrite set_ok by lia. cbn [bind]. rewrite EC, at_sub by auto. cbn [bind].
        apply wp_ret. cbn [fst snd].
        split; [rewrite upd_length; auto|]. split; [|split].
        + intros r' c' Hin. rewrite nth_upd_neq; auto. intros E. apply Hrb. rewrite E.
          apply in_map_iff. exists (r', c'); auto.
        + intros a Ha. destruct (Nat.eq_dec a k) as [->|Hne].
          * apply nth_upd_eq. lia.
          * rewrite nth_upd_neq; [apply I3; lia|]. intros E. apply Hne.
            apply (proj1 (NoDup_nth (rl B) 0) (rl_nodup C0 B)); auto; lia.
        + rewrite I4. rewrite <- sub_entry by auto.
          destruct (Hfin k Hkr) as [x Ex]. rewrite Ex.
          assert (Hx : (Rabs x <= bb)%R /\ grid x).
          { rewrite sub_entry in Ex by auto. unfold ecell in Ex. simpl in Ex.
            destruct (inp X _ _); [discriminate|]. eapply e_bound; [exact Hrn|exact Hcm|exact Ex]. }
          assert (Ep : part (S k) = Rplus (part k) x).
          { unfold part. rewrite seq_S, map_app, Rsum_app. simpl. rewrite Ex. simpl. lra. }
          destruct (sum_step (length B + k) y (part k) x) as (z & Ez & Gz & Hz & Hz'); auto; try apply Hx.
          { unfold n in HBl. lia. }
          exists z. rewrite Ez, Ep, Nat.add_succ_r. auto. }
    intros [sol cost] (I1 & I2 & I3 & (y & I4 & G4 & I5 & _)). simpl fst in *. simpl snd in *.
    rewrite Hrs in I3, I5. rewrite map_length, Hlt in I3, I5. simpl Nat.add in I3, I5. rewrite HBl in I5.
    apply wp_ret. rewrite I4. change (nlt roundN (Fin _) (ninf roundN)) with true. cbv iota.
    set (sg := map (fun o => match o with Some j => j | None => 0 end) sol).
    assert (Hn : forall i, nth i sg 0 = match nth i sol None with Some j => j | None => 0 end).
    { intros i. exact (map_nth (fun o : option nat => match o with Some j => j | None => 0 end) sol None i). }
    assert (Hag : agrees B t sg).
    { split; [unfold sg; rewrite map_length; auto|]. split; auto. split.
      - intros r' c' Hin. rewrite Hn, (I2 _ _ Hin). auto.
      - intros a Ha. split; [apply Hrt, nth_In; lia|]. rewrite Hn, I3; auto. }
    assert (Esol : sol = map Some sg).
    { apply nth_ext with (d := None) (d' := Some 0); [unfold sg; rewrite !map_length; auto|].
      intros i Hi. rewrite map_nth, Hn.
      destruct (row_cases C0 Hrows B i) as [[c Hc]|(a & Ha & Ea)]; [unfold n in I1; lia| |].
      - rewrite (I2 _ _ Hc). auto.
      - rewrite <- Ea, I3 by auto. auto. }
    assert (Etot : part (length (rl B)) = total C0 sg).
    { unfold part. rewrite (total_split C0 Hrows B X t sg HB Hag Hft). auto. }
    rewrite Etot in I5.
    set (st' := mkSt _ _ _ _ _ _ _ _ _ _).
    split; [|reflexivity]. split.
    + destruct Hrep. constructor; simpl; auto.
      * apply (ws_lu _ _ _ _ _ _ Hws).
      * destruct (ws_core _ _ _ _ _ _ Hws) as (cs & Hcore & _). apply (wc_lv _ _ _ _ _ _ Hcore).
    + split; [|discriminate]. intros _. exists t, sg. constructor; simpl; auto.
      * rewrite <- Hrs. exact Hws.
      * exists y. auto.
  - rewrite Hbad. apply wp_ret. intros s Hf. destruct (memb (B, X) s) eqn:E; auto. exfalso.
    destruct (global_local C0 Hrows B X s HB Hf E) as [_ H]. apply (Hno _ H).
Qed.

(** ** Partitioning *)
Lemma wwith_spec F st B X r c : wrep st B X -> In r (rl B) -> In c (cl B) -> is_fin (e r c) -> ~ In (r, c) X ->
  nth r (s_sol st) None = Some c ->
  wp F (partition_with roundN st (rk (notin (map fst B)) r) (rk (notin (map snd B)) c))
    (fun st' => wrep st' ((r, c) :: B) X /\ s_sol st' = s_sol st /\ s_cost st' = s_cost st).
Proof.
  intros Hrep Hr Hc Hf HX Hsol. unfold partition_with.
  destruct (rk_rl C0 Hrows B r Hr) as [Hi Ei]. destruct (rk_cl C0 Hrows B c Hc) as [Hj Ej].
  rewrite (wr_C _ _ _ Hrep), (wr_r _ _ _ Hrep), (wr_c _ _ _ Hrep).
  rewrite allbut_sub by auto. cbn [bind].
  assert (Hui : rk (notin (map fst B)) r < length (s_u st)) by (rewrite (wr_lu _ _ _ Hrep); auto).
  assert (Hvj : rk (notin (map snd B)) c < length (s_v st)) by (rewrite (wr_lv _ _ _ Hrep); auto).
  destruct (remove_nth_ok _ _ Hui) as (u' & -> & Lu). cbn [bind].
  destruct (remove_nth_ok _ _ Hvj) as (v' & -> & Lv). cbn [bind].
  pose proof (remove_rl C0 Hrows B r c Hr) as Er. pose proof (remove_cl C0 Hrows B r c Hc) as Ec.
  destruct (remove_nth_ok _ _ Hi) as (r' & E1 & L1). rewrite Er in E1. inversion E1; subst r'. clear E1.
  destruct (remove_nth_ok _ _ Hj) as (c' & E1 & L2). rewrite Ec in E1. inversion E1; subst c'. clear E1.
  rewrite Er. cbn [bind]. rewrite Ec. cbn [bind]. rewrite at_sub by auto. cbn [bind].
  rewrite Ei, Ej. apply wp_ret. split; [|split; reflexivity].
  assert (HB' : okB ((r, c) :: B) X) by (apply okB_bind; auto; apply Hrep).
  constructor; simpl s_C; simpl s_rmap; simpl s_cmap; simpl s_u; simpl s_v; simpl s_sol; simpl s_bound; auto.
  - rewrite Lu, (wr_lu _ _ _ Hrep). auto.
  - rewrite Lv, (wr_lv _ _ _ Hrep). auto.
  - apply Hrep.
  - intros r' c' [E|Hin]; [inversion E; subst; auto|]. apply Hrep; auto.
  - destruct (wr_bound _ _ _ Hrep) as (y & Ey & Gy & Hy & Hy'). rewrite Ey. unfold ecell. cbn [fst snd].
    destruct (inp X r c) eqn:E; [apply inp_spec in E; tauto|].
    destruct Hf as [x Hx]. rewrite Hx.
    pose proof (B_length _ _ HB') as HBl. simpl length in HBl.
    apply (in_rl C0 Hrows) in Hr. apply (in_cl C0 Hrows) in Hc.
    destruct (e_bound r c x ltac:(apply Hr) ltac:(apply Hc) Hx) as [Bx Gx].
    destruct (sum_step (length B) y (sumB B) x) as (z & Ez & Gz & Hz & Hz'); auto.
    { unfold n in HBl. lia. }
    assert (Es : sumB ((r, c) :: B) = Rplus (sumB B) x) by (unfold MurtySub.sumB; simpl; rewrite Hx; simpl; lra).
    exists z. split; [exact Ez|]. rewrite Es. simpl length. auto.
Qed.

Lemma wwithout_spec F st B X r c d : wrep st B X -> In r (rl B) -> In c (cl B) ->
  wp F (partition_without roundN st (rk (notin (map fst B)) r) (rk (notin (map snd B)) c) d)
    (fun st' => wrep st' B ((r, c) :: X) /\ s_solved st' = false /\ s_cost st' = nadd roundN (s_cost st) d).
Proof.
  intros Hrep Hr Hc. unfold partition_without.
  rewrite (wr_C _ _ _ Hrep). change (ninf roundN) with (@PInf R). rewrite set_sub by auto. cbn [bind].
  apply wp_ret. split; [|split; reflexivity]. destruct Hrep. constructor; simpl s_C; auto.
  apply okB_forbid; auto.
Qed.

(** ** sort_by_dual *)
(** A dual value: +infinity, or a number that bounds the difference to the
    assignments with another column in this row; +infinity if there are none. *)
Definition dual_num (h : ext R) : Prop :=
  h = PInf \/ exists y, h = Fin y /\ grid y /\ (Rabs y <= 27 * INR m * bb)%R.
Definition wdual_ok (C : matrix (ext R)) (t : list nat) (i : nat) (h : ext R) : Prop :=
  dual_num h /\
  forall s, feasible C s -> nth i s 0 <> nth i t 0 ->
    exists y, h = Fin y /\ (total C t + y <= total C s + lap_err n dl + 3 * dl)%R.

Lemma dual_value c1 c2 v1 v2 : 0 < m -> grid c1 -> grid c2 -> grid v1 -> grid v2 ->
  (Rabs c1 <= bb)%R -> (Rabs c2 <= bb)%R -> (Rabs v1 <= 12 * INR m * bb)%R -> (Rabs v2 <= 12 * INR m * bb)%R ->
  exists y, nsub roundN (nsub roundN (Fin c2) (nsub roundN (Fin c1) (Fin v1))) (Fin v2) = Fin y /\ grid y /\
    (Rabs y <= 27 * INR m * bb)%R /\ (Rabs (y - ((c2 - v2) - (c1 - v1))) <= 3 * dl)%R.
Proof.
  intros Hm G1 G2 G3 G4 B1 B2 B3 B4.
  assert (HmB : (bb <= INR m * bb)%R).
  { rewrite <- (Rmult_1_l bb) at 1. apply Rmult_le_compat_r; [lra|]. change 1%R with (INR 1). apply le_INR. lia. }
  destruct (ar_dl _ _ _ _ HA) as [D0 D1].
  replace (12 * INR m * bb)%R with (12 * (INR m * bb))%R in * by ring. replace (27 * INR m * bb)%R with (27 * (INR m * bb))%R by ring.
  assert (E32 : (32 * INR m * bb = 32 * (INR m * bb))%R) by ring.
  set (M := (INR m * bb)%R) in *.
  apply Rabs_le_inv in B1. apply Rabs_le_inv in B2. apply Rabs_le_inv in B3. apply Rabs_le_inv in B4.
  destruct (ar_sub _ _ _ _ HA c1 v1 G1 G3) as (E1 & Ga & H1); [rewrite E32; apply Rabs_le; lra|].
  set (x1 := rnd (c1 - v1)) in *. apply Rabs_le_inv in H1.
  destruct (ar_sub _ _ _ _ HA c2 x1 G2 Ga) as (E2 & Gb & H2); [rewrite E32; apply Rabs_le; lra|].
  set (x2 := rnd (c2 - x1)) in *. apply Rabs_le_inv in H2.
  destruct (ar_sub _ _ _ _ HA x2 v2 Gb G4) as (E3 & Gc & H3); [rewrite E32; apply Rabs_le; lra|].
  apply Rabs_le_inv in H3. exists (rnd (x2 - v2)). rewrite E1, E2, E3. split; auto. split; auto.
  split; apply Rabs_le; lra.
Qed.

Lemma wsort_spec F st B X t sg : wrep st B X -> wsolvedst st B X t sg ->
  wp F (sort_by_dual roundN st)
    (fun order =>
       Permutation (map (fun p => snd (fst p)) order) (seq 0 (length (rl B))) /\
       forall h i j, In (h, i, j) order ->
         i < length (rl B) /\ j = nth i t 0 /\ wdual_ok (sub B X) t i h).
Proof.
  intros Hrep Hs. pose proof (ws_feas _ _ _ _ _ Hs) as Hft. pose proof Hft as [(Hlt & Hndt & Hrt) Hfin].
  cbn [m_rows m_cols MurtySub.sub] in Hlt, Hrt, Hfin.
  pose proof (ws_duals _ _ _ _ _ Hs) as Hws. pose proof Hws as [_ _ Hlu Hu].
  pose proof (ws_e _ _ _ _ _ Hs) as He. pose proof He as (cs & Hec & Hall).
  pose proof (ec_w _ _ _ _ _ _ _ _ _ Hec) as Hcore.
  set (D := m_data (sub B X)) in *. set (n1 := length (rl B)) in *. set (m1 := length (cl B)) in *.
  assert (HCs : cost_matrix (sub B X)) by (apply sub_cost; auto).
  assert (Hrs : m_rows (sub B X) <= 30) by (apply sub_rows; auto).
  assert (HwD : wfC n1 m1 D) by exact (wfD (sub B X) HCs).
  assert (Hm1 : m1 <= m) by apply cl_length.
  assert (Hts : forall i, i < n1 -> nth i (map Some t) None = Some (nth i t 0)).
  { intros i Hi. rewrite nth_indep with (d' := Some 0) by (rewrite map_length; lia). apply map_nth. }
  assert (Hcb : forall i j, i < n1 -> j < m1 -> finb m1 D i j = true -> (Rabs (cr m1 D i j) <= bb)%R /\ grid (cr m1 D i j)).
  { intros i j Hi Hj Hf. exact (costE (sub B X) HCs bb grid (sub_bound B X) i j Hi Hj Hf). }
  assert (Hvb : forall j, j < m1 -> lk (s_v st) j = false -> (Rabs (vr (s_v st) j) <= 12 * INR m * bb)%R /\ grid (vr (s_v st) j)).
  { intros j Hj Hl. split; [|apply (ec_grid _ _ _ _ _ _ _ _ _ Hec); auto].
    eapply Rle_trans; [apply (ec_bnd _ _ _ _ _ _ _ _ _ Hec); auto|]. apply Rmult_le_compat_r; [lra|].
    apply Rmult_le_compat_l; [lra|]. apply le_INR. auto. }
  unfold sort_by_dual. rewrite (wr_C _ _ _ Hrep). apply wp_bind. eapply wp_conseq.
  { apply (wp_mapM F _ (fun i (p : ext R * nat * nat) => snd (fst p) = i /\
      i < n1 /\ snd p = nth i t 0 /\ wdual_ok (sub B X) t i (fst (fst p)))).
    cbn [m_rows MurtySub.sub]. fold n1. intros i Hi. apply in_seq in Hi.
    rewrite (ws_res _ _ _ _ _ Hs).
    rewrite (get_ok _ _ None) by (rewrite map_length; lia). rewrite Hts by lia. cbn [bind idx].
    apply wp_bind. set (si := nth i t 0).
    assert (Hsi : si < m1) by (apply Hrt, nth_In; lia).
    assert (Ecs : nth si cs None = Some i).
    { destruct (Hall i ltac:(lia)) as (j0 & Hj0 & Ej0).
      destruct (wc_a1 _ _ _ _ _ _ Hcore _ _ Hj0 Ej0) as [_ Er0]. rewrite Hts in Er0 by lia. inversion Er0. subst j0. exact Ej0. }
    eapply wp_conseq.
    { apply (wp_for F (m_cols (sub B X)) 0 _ (fun k best => dual_num best /\
        forall j, j < k -> j <> si -> av m1 D (s_v st) i j = true -> lk (s_v st) si = false ->
          exists y, best = Fin y /\ (y <= rc m1 D (s_v st) i j - rc m1 D (s_v st) i si + 3 * dl)%R)).
      - split; [left; reflexivity|intros; lia].
      - cbn [m_cols MurtySub.sub]. fold m1. intros j best Hj [Hnum Hinv].
        assert (Hkeep : (j = si \/ av m1 D (s_v st) i j = false \/ lk (s_v st) si = true) ->
          forall j', j' < S j -> j' <> si -> av m1 D (s_v st) i j' = true -> lk (s_v st) si = false ->
            exists y, best = Fin y /\ (y <= rc m1 D (s_v st) i j' - rc m1 D (s_v st) i si + 3 * dl)%R).
        { intros Hc j' Hj' Hne Ha Hl. destruct (Nat.eq_dec j' j) as [->|]; [|apply (Hinv j'); auto; lia].
          destruct Hc as [Hc|[Hc|Hc]]; congruence. }
        cbv beta. destruct (Nat.eqb_spec j si) as [Ej|Hne]; [apply wp_ret; split; [auto|apply Hkeep; auto]|].
        assert (Eat : at_ (sub B X) i j = Ok (c m1 D i j)).
        { rewrite (at_entry (sub B X) HCs i j) by (simpl; fold n1 m1; lia). reflexivity. }
        rewrite Eat. cbn [bind].
        destruct (c_cases n1 m1 D HwD i j) as [[Ec Ef]|[Ec Ef]]; try lia; rewrite Ec.
        + change (nle roundN (ninf roundN) (Fin (cr m1 D i j))) with false. cbv iota.
          rewrite (get_ok _ _ NaN) by (rewrite Hlu; lia). cbn [bind].
          rewrite (get_ok (s_v st) _ NaN) by (rewrite (wc_lv _ _ _ _ _ _ Hcore); lia). cbn [bind].
          rewrite (Hu i si) by (auto; try lia; apply Hts; lia).
          assert (Hfs : finb m1 D i si = true) by (apply (wc_fin _ _ _ _ _ _ Hcore); auto).
          destruct (c_cases n1 m1 D HwD i si) as [[Es _]|[_ Es]]; try lia; [|congruence].
          set (h := nsub roundN _ _). apply wp_ret.
          destruct (Hcb i si ltac:(lia) Hsi Hfs) as [Bc1 Gc1]. destruct (Hcb i j ltac:(lia) ltac:(lia) Ef) as [Bc2 Gc2].
          destruct (w_cases n1 m1 D _ _ _ si Hcore Hsi) as [(Ev' & El')|(Ev' & El')].
          * destruct (Hvb si Hsi El') as [Bv1 Gv1].
            destruct (w_cases n1 m1 D _ _ _ j Hcore) as [(Ev & El)|(Ev & El)]; [lia| |].
            -- destruct (Hvb j ltac:(lia) El) as [Bv2 Gv2].
               destruct (dual_value (cr m1 D i si) (cr m1 D i j) (vr (s_v st) si) (vr (s_v st) j)) as (y & Ey & Gy & By & Hy);
                 auto; [lia|].
               assert (Eh : h = Fin y) by (unfold h; rewrite Ev, Ev', Es; exact Ey). rewrite Eh.
               assert (Hyr : (y <= rc m1 D (s_v st) i j - rc m1 D (s_v st) i si + 3 * dl)%R).
               { apply Rabs_le_inv in Hy. unfold rc. lra. }
               destruct Hnum as [->|(z & -> & Gz & Bz)].
               ++ change (nlt roundN (Fin y) PInf) with true. cbv iota. split; [right; eauto|].
                  intros j' Hj' Hne' Ha _. destruct (Nat.eq_dec j' j) as [->|]; [eauto|].
                  destruct (Hinv j') as (y' & E' & _); auto; [lia|]. discriminate.
               ++ change (nlt roundN (Fin y) (Fin z)) with (Rltb y z). destruct (Rltb_spec y z) as [Hlt2|Hge]; (split; [right; eauto|]).
                  ** intros j' Hj' Hne' Ha _. destruct (Nat.eq_dec j' j) as [->|]; [eauto|].
                     destruct (Hinv j') as (y' & E' & Hle'); auto; [lia|]. inversion E'; subst y'. exists y. split; auto. lra.
                  ** intros j' Hj' Hne' Ha _. destruct (Nat.eq_dec j' j) as [->|]; [exists z; split; auto; lra|].
                     apply (Hinv j'); auto; lia.
            -- assert (Eb : nlt roundN h best = false).
               { assert (Eh : h = PInf \/ h = NaN).
                 { unfold h. rewrite Ev, Ev', Es. destruct (nsub roundN (Fin (cr m1 D i si)) (Fin (vr (s_v st) si))).
                   - destruct (nsub roundN (Fin (cr m1 D i j)) (Fin a)); simpl; auto.
                   - simpl; auto.
                   - simpl; auto.
                   - simpl; auto. }
                 destruct Eh as [-> | ->]; destruct best; reflexivity. }
               rewrite Eb. split; auto. apply Hkeep. right; left. unfold av. rewrite El, andb_false_r. auto.
          * assert (Elj : lk (s_v st) j = true) by (apply (wc_alt _ _ _ _ _ _ Hcore si i j); auto; lia).
            destruct (w_cases n1 m1 D _ _ _ j Hcore) as [(Ev & El)|(Ev & El)]; [lia|congruence|].
            assert (Eh : h = NaN) by (unfold h; rewrite Ev, Ev', Es; reflexivity). rewrite Eh.
            assert (Eb : nlt roundN NaN best = false) by (destruct best; reflexivity). rewrite Eb. split; auto.
        + change (nle roundN (ninf roundN) PInf) with true. cbv iota. apply wp_ret. split; auto. apply Hkeep.
          right; left. unfold av. rewrite Ef. auto. }
    intros h [Hnum Hh]. apply wp_ret. simpl. split; auto. split; [lia|]. split; auto. split; auto.
    intros s Hfs Hne. cbn [m_cols MurtySub.sub] in Hh. fold m1 in Hh. simpl Nat.add in Hh. fold si in Hne.
    pose proof (feasible_feas (sub B X) Hrs eq_refl s Hfs) as Hff. cbn [m_rows m_cols MurtySub.sub] in Hff. fold n1 m1 D in Hff.
    pose proof Hff as [F1 F2].
    destruct (lk (s_v st) si) eqn:El.
    { exfalso. apply Hne. apply (wc_forced _ _ _ _ _ _ Hcore si i (fun i => nth i s 0)); auto. }
    destruct (F1 i ltac:(lia)) as [Hk Hfk].
    assert (Ha : av m1 D (s_v st) i (nth i s 0) = true).
    { unfold av. rewrite Hfk. simpl. destruct (lk (s_v st) (nth i s 0)) eqn:El2; auto. exfalso.
      destruct (w_locked n1 m1 D _ _ _ _ Hcore Hk El2) as [i' Ei'].
      pose proof (wc_forced _ _ _ _ _ _ Hcore _ i' (fun i => nth i s 0) Hk Ei' El2 Hff) as X1. simpl in X1.
      destruct (wc_a1 _ _ _ _ _ _ Hcore _ _ Hk Ei') as [Hi' _].
      assert (i' = i) by (apply F2; auto; lia). subst i'.
      apply Hne. eapply (w_inj n1 m1 D); eauto. }
    destruct (Hh (nth i s 0)) as (y & Ey & Hy); auto. exists y. split; auto.
    pose proof (esolved_lap (sub B X) Hrs eq_refl bb dl grid (sub_ar B X) (s_v st) t s (y - 3 * dl) i He Hft Hfs) as Q.
    cbn [m_rows m_cols MurtySub.sub] in Q. fold n1 m1 D si in Q. lapply Q; [clear Q; intros Q|lia]. lapply Q; [clear Q; intros Q|lra].
    destruct (lap_err_mono n1 n dl (proj1 (ar_dl _ _ _ _ HA)) (rl_length' B)). lra. }
  cbn [m_rows MurtySub.sub]. fold n1. intros l Hl. apply wp_ret. split.
  - rewrite (Permutation_map _ (rsort_perm l)).
    assert (map (fun p => snd (fst p)) l = seq 0 n1) as ->; [|auto].
    induction Hl as [|i p l1 l2 [Hp _] _ IH]; simpl; auto. congruence.
  - intros h i j Hin. apply (Permutation_in _ (rsort_perm l)) in Hin.
    revert Hin. induction Hl as [|i' p l1 l2 Hp _ IH]; intros Hin; [destruct Hin|].
    destruct Hin as [->|Hin]; auto. simpl in Hp. destruct Hp as (-> & H1 & H2 & H3). auto.
Qed.

(** ** Partitioning a solved state *)
Definition cnt (L : list (state * (pairs * pairs))) (s : list nat) : nat :=
  length (filter (fun p => memb (snd p) s) L).

Lemma cnt_app L L' s : cnt (L ++ L') s = cnt L s + cnt L' s.
Proof. unfold cnt. rewrite filter_app, app_length. auto. Qed.
Lemma cnt_cons p L s : cnt (p :: L) s = (if memb (snd p) s then 1 else 0) + cnt L s.
Proof. unfold cnt. simpl. destruct (memb (snd p) s); auto. Qed.

Section Children.
Variables (B X : pairs) (t sg : list nat) (st0 : state).
Hypothesis Hrep0 : wrep st0 B X.
Hypothesis Hss : wsolvedst st0 B X t sg.

Definition wentry_ok (p : ext R * nat * nat) : Prop :=
  let '(h, i, j) := p in
  i < length (rl B) /\ j = nth i t 0 /\ wdual_ok (sub B X) t i h.

Definition bp (p : ext R * nat * nat) : nat * nat :=
  (nth (snd (fst p)) (rl B) 0, nth (snd p) (cl B) 0).
Definition Bk (prev : list (ext R * nat * nat)) : pairs := rev (map bp prev) ++ B.

Lemma Bk_snoc prev p : Bk (prev ++ [p]) = bp p :: Bk prev.
Proof. unfold Bk. rewrite map_app, rev_app_distr. auto. Qed.

Lemma wlocal_props : feasible (sub B X) t /\ length t = length (rl B) /\ NoDup t /\
  (forall i, i < length (rl B) -> nth i t 0 < length (cl B)).
Proof.
  pose proof (ws_feas _ _ _ _ _ Hss) as Hft.
  pose proof Hft as [(Hlt & Hndt & Hrt) _]. cbn [m_rows m_cols MurtySub.sub] in Hlt, Hrt.
  split; auto. split; auto. split; auto. intros i Hi. apply Hrt, nth_In. lia.
Qed.

Lemma wpart_index prev h i j rest :
  Forall wentry_ok (prev ++ (h, i, j) :: rest) ->
  NoDup (map (fun p => snd (fst p)) (prev ++ (h, i, j) :: rest)) ->
  get_partition_index prev i j =
    (rk (notin (map fst (Bk prev))) (nth i (rl B) 0), rk (notin (map snd (Bk prev))) (nth j (cl B) 0)).
Proof.
  intros Hok Hnd. destruct wlocal_props as (_ & Hlt & Hndt & Hcol).
  assert (Hok' : forall q, In q (prev ++ [(h, i, j)]) -> wentry_ok q).
  { intros q Hq. rewrite Forall_forall in Hok. apply Hok. rewrite in_app_iff in *. simpl in *. tauto. }
  assert (Hnd' : NoDup (map (fun p => snd (fst p)) (prev ++ [(h, i, j)]))).
  { replace (prev ++ (h, i, j) :: rest) with ((prev ++ [(h, i, j)]) ++ rest) in Hnd by (rewrite <- app_assoc; auto).
    rewrite map_app in Hnd. clear -Hnd. induction (map (fun p => snd (fst p)) (prev ++ [(h, i, j)])); [constructor|].
    simpl in Hnd. inversion Hnd; subst. constructor; auto. rewrite in_app_iff in H1. tauto. }
  unfold get_partition_index. f_equal.
  - unfold Bk. rewrite map_app, map_rev, map_map.
    replace (map (fun x => fst (bp x)) prev) with (map (fun k => nth k (rl B) 0) (map (fun p => snd (fst p)) prev))
      by (rewrite map_map; auto).
    unfold MurtySub.rl. rewrite rk_removed.
    + f_equal. clear. induction prev as [|q prev IH]; simpl; auto. destruct (snd (fst q) <? i); simpl; auto.
    + rewrite map_app in Hnd'. exact Hnd'.
    + intros k Hk. change [i] with (map (fun p => snd (fst p)) [(h, i, j)]) in Hk. rewrite <- map_app in Hk.
      apply in_map_iff in Hk. destruct Hk as ([[h' i'] j'] & <- & Hq). apply Hok' in Hq. apply Hq.
  - unfold Bk. rewrite map_app, map_rev, map_map.
    replace (map (fun x => snd (bp x)) prev) with (map (fun k => nth k (cl B) 0) (map snd prev))
      by (rewrite map_map; auto).
    unfold MurtySub.cl. rewrite rk_removed.
    + f_equal. clear. induction prev as [|q prev IH]; simpl; auto. destruct (snd q <? j); simpl; auto.
    + change [j] with (map snd [(h, i, j)]). rewrite <- map_app.
      apply (NoDup_nth _ 0). intros a b' Ha Hb' E. rewrite map_length in Ha, Hb'.
      set (L := prev ++ [(h, i, j)]) in *. set (d := (h, i, j)).
      assert (Hs : forall a, a < length L -> nth a (map snd L) 0 = nth (snd (fst (nth a L d))) t 0 /\
                                         snd (fst (nth a L d)) < length t).
      { intros a' Ha'. rewrite nth_indep with (d' := snd d) by (rewrite map_length; auto). rewrite map_nth.
        assert (Hin : In (nth a' L d) L) by (apply nth_In; auto). apply Hok' in Hin.
        destruct (nth a' L d) as [[h' i'] j']. simpl in *. rewrite Hlt. tauto. }
      destruct (Hs a Ha) as [E1 L1]. destruct (Hs b' Hb') as [E2 L2]. rewrite E1, E2 in E.
      apply (proj1 (NoDup_nth t 0) Hndt) in E; auto.
      apply (proj1 (NoDup_nth _ (snd (fst d))) Hnd'); try (rewrite map_length; auto).
      rewrite !(map_nth (fun p => snd (fst p))). auto.
    + intros k Hk. change [j] with (map snd [(h, i, j)]) in Hk. rewrite <- map_app in Hk.
      apply in_map_iff in Hk. destruct Hk as ([[h' i'] j'] & <- & Hq). apply Hok' in Hq.
      destruct Hq as (H1 & H2 & _). simpl. subst j'. apply Hcol; auto.
Qed.

(** A member of the solved problem that differs from the solution in row [i]. *)
Lemma wdiffers i s h : i < length (rl B) -> wdual_ok (sub B X) t i h ->
  feasible C0 s -> memb (B, X) s = true ->
  nth (nth i (rl B) 0) s 0 <> nth (nth i t 0) (cl B) 0 ->
  exists y, h = Fin y /\ (total C0 sg + y <= total C0 s + lap_err n dl + 3 * dl)%R.
Proof.
  intros Hi Hd Hf Hm Hne. pose proof (wr_ok _ _ _ Hrep0) as HB.
  destruct (global_local C0 Hrows B X s HB Hf Hm) as [Hag Hfl].
  assert (Hne' : nth i (localize C0 B s) 0 <> nth i t 0).
  { intros E. apply Hne. destruct Hag as (_ & _ & _ & H). destruct (H i Hi) as [_ H1]. rewrite H1, E. auto. }
  destruct (proj2 Hd _ Hfl Hne') as (y & -> & Hy). exists y. split; auto.
  rewrite (total_split C0 Hrows B X t sg HB (ws_ag _ _ _ _ _ Hss) (ws_feas _ _ _ _ _ Hss)).
  rewrite (total_split C0 Hrows B X _ s HB Hag Hfl). lra.
Qed.

Definition differ (s : list nat) (p : ext R * nat * nat) : bool :=
  negb (nth (fst (bp p)) s 0 =? snd (bp p)).

(** The cost of a child. *)
Lemma child_cost y : grid y -> (Rabs y <= 27 * INR m * bb)%R ->
  exists z, nadd roundN (s_cost st0) (Fin y) = Fin z /\ (z <= total C0 sg + INR n * et + y + dl)%R.
Proof.
  intros Gy By. destruct (ws_cost _ _ _ _ _ Hss) as (y0 & -> & G0 & H0).
  destruct (wsolved_sol st0 B X t sg Hrep0 Hss) as [Hf _].
  pose proof (total_abs C0 bb sg Hord HC0 Hcost Hf) as Ht. fold n in Ht.
  assert (Hnm : n <= m).
  { destruct Hf as [(Hl & Hnd & Hlt) _]. fold n in Hl. fold m in Hlt. rewrite <- Hl, <- (seq_length m 0).
    apply NoDup_incl_length; auto. intros j Hj. apply in_seq. specialize (Hlt j Hj). lia. }
  assert (Hn30 : (0 <= INR n <= 30)%R).
  { split; [apply pos_INR|]. replace 30%R with (INR 30) by (simpl; lra). apply le_INR. auto. }
  destruct (su_et _ _ _ _ _ Hsums) as [Hp Ee]. fold bb in Ee.
  assert (Hne : (0 <= INR n * et <= 30 * et)%R) by (split; [apply Rmult_le_pos|apply Rmult_le_compat_r]; lra).
  destruct (Nat.eq_dec m 0) as [E0|Hm0].
  { assert (n = 0) by lia. rewrite E0 in By. rewrite H in Ht, H0. cbn [INR] in *.
    assert (Hy0 : y = 0%R). { assert (Rabs y = 0)%R by (pose proof (Rabs_pos y); lra). destruct (Req_dec y 0); auto. apply Rabs_pos_lt in H2. lra. }
    apply Rabs_le_inv in Ht. apply Rabs_le_inv in H0. assert (y0 = 0)%R by lra. subst.
    destruct (ar_add _ _ _ _ HA 0 0) as (E1 & _ & E2); auto; [rewrite Rplus_0_r, Rabs_R0; rewrite E0; cbn [INR]; lra|].
    rewrite E1. eexists. split; [reflexivity|]. apply Rabs_le_inv in E2. rewrite H. cbn [INR]. lra. }
  assert (HmB : (bb <= INR m * bb)%R).
  { rewrite <- (Rmult_1_l bb) at 1. apply Rmult_le_compat_r; [lra|]. change 1%R with (INR 1). apply le_INR. lia. }
  assert (HnB : (INR n * bb <= INR m * bb)%R) by (apply Rmult_le_compat_r; [lra|apply le_INR; auto]).
  replace (27 * INR m * bb)%R with (27 * (INR m * bb))%R in By by ring.
  apply Rabs_le_inv in Ht. apply Rabs_le_inv in H0. apply Rabs_le_inv in By.
  destruct (ar_add _ _ _ _ HA y0 y G0 Gy) as (E1 & _ & E2).
  { replace (32 * INR m * bb)%R with (32 * (INR m * bb))%R by ring. apply Rabs_le. lra. }
  rewrite E1. eexists. split; [reflexivity|]. apply Rabs_le_inv in E2. lra.
Qed.

Lemma wpush_children_spec F rest : forall prev node q,
  Forall wentry_ok (prev ++ rest) ->
  NoDup (map (fun p => snd (fst p)) (prev ++ rest)) ->
  wrep node (Bk prev) X -> s_sol node = map Some sg -> s_cost node = s_cost st0 ->
  wp F (push_children roundN prev rest node q)
    (fun q' => exists L, q' = q ++ map fst L /\ Forall wokst L /\
       (forall p, In p L -> s_solved (fst p) = false) /\
       forall s, feasible C0 s ->
         cnt L s = if memb (Bk prev, X) s && existsb (differ s) rest then 1 else 0).
Proof.
  induction rest as [|[[h i] j] rest IH]; intros prev node q Hok Hnd Hrep Hsol Hcst.
  - simpl. exists []. simpl. rewrite app_nil_r. split; auto. split; auto. split; [tauto|].
    intros s Hs. rewrite andb_false_r. auto.
  - cbn [push_children]. rewrite (wpart_index prev h i j rest) by auto.
    assert (Hp : wentry_ok (h, i, j)).
    { rewrite Forall_forall in Hok. apply Hok. rewrite in_app_iff. simpl; auto. }
    destruct Hp as (Hi & Hj & Hdual).
    destruct wlocal_props as (Hft & Hlt & Hndt & Hcol).
    pose proof (Hcol i Hi) as Hjc. rewrite <- Hj in Hjc.
    set (rr := nth i (rl B) 0). set (cc := nth j (cl B) 0).
    assert (Hdist : forall p, In p prev -> snd (fst p) <> i /\ snd p <> j /\ snd (fst p) < length (rl B) /\ snd p < length (cl B)).
    { intros [[h' i'] j'] Hin. simpl.
      assert (Hq : wentry_ok (h', i', j')).
      { rewrite Forall_forall in Hok. apply Hok. rewrite in_app_iff. auto. }
      destruct Hq as (Hi' & Hj' & _).
      assert (i' <> i).
      { intros ->. rewrite map_app in Hnd. simpl in Hnd. apply NoDup_remove_2 in Hnd. apply Hnd.
        rewrite in_app_iff. left. apply in_map_iff. exists (h', i, j'). auto. }
      split; auto. split; [|split; auto].
      - intros E. apply H. apply (proj1 (NoDup_nth t 0) Hndt); lia.
      - subst j'. auto. }
    assert (Hrr : In rr (rl (Bk prev))).
    { apply (in_rl C0 Hrows). destruct (rl_in C0 B i Hi) as [H1 H2]. split; auto. unfold Bk.
      rewrite map_app, in_app_iff, map_rev, <- in_rev. intros [Hin|Hin]; auto.
      rewrite map_map in Hin. apply in_map_iff in Hin. destruct Hin as (p & E & Hin).
      destruct (Hdist p Hin) as (H3 & _ & H4 & _). apply H3. simpl in E.
      apply (proj1 (NoDup_nth (rl B) 0) (rl_nodup C0 B)); auto. }
    assert (Hcc : In cc (cl (Bk prev))).
    { apply (in_cl C0 Hrows). destruct (cl_in C0 B j Hjc) as [H1 H2]. split; auto. unfold Bk.
      rewrite map_app, in_app_iff, map_rev, <- in_rev. intros [Hin|Hin]; auto.
      rewrite map_map in Hin. apply in_map_iff in Hin. destruct Hin as (p & E & Hin).
      destruct (Hdist p Hin) as (_ & H3 & _ & H4). apply H3. simpl in E.
      apply (proj1 (NoDup_nth (cl B) 0) (cl_nodup C0 B)); auto. }
    assert (Hfin : is_fin (e rr cc) /\ ~ In (rr, cc) X).
    { apply (sub_fin C0 B X); auto. rewrite Hj. apply Hft. auto. }
    assert (Esg : nth rr sg 0 = cc).
    { destruct (ws_ag _ _ _ _ _ Hss) as (_ & _ & _ & H). unfold rr. rewrite (proj2 (H i Hi)).
      rewrite <- Hj. auto. }
    assert (Hlsg : length sg = n) by apply (ws_ag _ _ _ _ _ Hss).
    assert (Hmono : forall s, memb (Bk prev, X) s = true -> memb (B, X) s = true).
    { intros s Hs. apply memb_spec in Hs. apply memb_spec. destruct Hs as [H1 H2]. split; auto.
      intros r' c' Hin. apply H1. unfold Bk. rewrite in_app_iff. auto. }
    (* the excluded part *)
    assert (Hwith : wp F (partition_with roundN node (rk (notin (map fst (Bk prev))) rr) (rk (notin (map snd (Bk prev))) cc))
      (fun st' => wrep st' (Bk (prev ++ [(h, i, j)])) X /\ s_sol st' = map Some sg /\ s_cost st' = s_cost st0)).
    { eapply wp_conseq; [apply (wwith_spec F node (Bk prev) X rr cc); auto; try tauto|].
      - rewrite Hsol. rewrite nth_indep with (d' := Some 0).
        + rewrite map_nth, Esg. auto.
        + rewrite map_length, Hlsg. apply (in_rl C0 Hrows) in Hrr. apply Hrr.
      - intros st' (H1 & H3 & H4). rewrite Bk_snoc. split; [exact H1|split; congruence]. }
    assert (Hok' : Forall wentry_ok ((prev ++ [(h, i, j)]) ++ rest)) by (rewrite <- app_assoc; auto).
    assert (Hnd' : NoDup (map (fun p => snd (fst p)) ((prev ++ [(h, i, j)]) ++ rest))) by (rewrite <- app_assoc; auto).
    assert (Ediff : forall s, differ s (h, i, j) = negb (nth rr s 0 =? cc)) by reflexivity.
    assert (Ebind : forall s, memb (Bk (prev ++ [(h, i, j)]), X) s = (nth rr s 0 =? cc) && memb (Bk prev, X) s).
    { intros s. rewrite Bk_snoc. apply memb_bind. }
    destruct (nlt roundN h (ninf roundN)) eqn:Eh.
    + apply wp_bind. apply wp_bind.
      eapply wp_conseq; [apply (wwithout_spec F node (Bk prev) X rr cc); auto|].
      intros ch (Hch & Hcs & Hcc2). apply wp_ret. cbn [bind].
      apply wp_bind. eapply wp_conseq; [apply Hwith|]. intros node' (H1 & H3 & H4).
      eapply wp_conseq; [apply (IH (prev ++ [(h, i, j)]) node' (q ++ [ch])); auto|].
      intros q' (L & Eq & HL & HL2 & HL3).
      exists ((ch, (Bk prev, (rr, cc) :: X)) :: L). split; [|split; [|split]].
      * rewrite Eq, <- app_assoc. auto.
      * constructor; auto. split; auto. split; [rewrite Hcs; discriminate|]. intros _.
        destruct (proj1 Hdual) as [->|(y & -> & Gy & By)]; [discriminate|].
        destruct (child_cost y Gy By) as (z & Ez & Hz). rewrite Hcst, Ez in Hcc2. exists z. split; auto.
        intros s Hs Hm. rewrite memb_forbid in Hm. apply andb_true_iff in Hm. destruct Hm as [Hm1 Hm2].
        apply negb_true_iff, Nat.eqb_neq in Hm1.
        destruct (wdiffers i s (Fin y)) as (y' & Ey & Hy); auto; [unfold rr, cc in Hm1; rewrite Hj in Hm1; exact Hm1|].
        inversion Ey; subst y'. unfold kerr. lra.
      * intros p [<-|Hp]; [|apply HL2; auto]. auto.
      * intros s Hs. rewrite cnt_cons, (HL3 s Hs), Ebind. simpl existsb. rewrite Ediff. simpl snd.
        rewrite memb_forbid.
        assert (Hb1 : exists b, memb (Bk prev, X) s = b) by eauto. destruct Hb1 as [b1 Hb1]. unfold pairs in *. rewrite !Hb1. destruct b1; [|rewrite !andb_false_r; auto].
        destruct (nth rr s 0 =? cc); simpl; destruct (existsb (differ s) rest); reflexivity.
    + cbn [bind].
      apply wp_bind. eapply wp_conseq; [apply Hwith|]. intros node' (H1 & H3 & H4).
      eapply wp_conseq; [apply (IH (prev ++ [(h, i, j)]) node' q); auto|].
      intros q' (L & Eq & HL & HL2 & HL3). exists L. split; auto. split; auto. split; auto.
      intros s Hs. rewrite (HL3 s Hs), Ebind. simpl existsb. rewrite Ediff.
      destruct (memb (Bk prev, X) s) eqn:Em; [|rewrite andb_false_r; auto].
      destruct (Nat.eqb_spec (nth rr s 0) cc) as [E|Hne]; auto. exfalso.
      change (nlt roundN h PInf = false) in Eh.
      destruct (wdiffers i s h) as (y & -> & _); auto; [|discriminate]. unfold rr, cc in Hne. rewrite Hj in Hne. exact Hne.
Qed.

(** A member without a difference is the solution. *)
Lemma wno_difference order s :
  Permutation (map (fun p => snd (fst p)) order) (seq 0 (length (rl B))) ->
  Forall wentry_ok order ->
  feasible C0 s -> memb (B, X) s = true ->
  existsb (differ s) order = false -> s = sg.
Proof.
  intros Hp Hok [(Hl & _) _] Hm Hd.
  destruct (ws_ag _ _ _ _ _ Hss) as (Hlsg & _ & Hb' & Ha).
  apply nth_ext with (d := 0) (d' := 0); [unfold n in *; congruence|].
  intros i Hi. apply memb_spec in Hm. destruct Hm as [Hm _].
  destruct (row_cases C0 Hrows B i) as [[c Hc]|(a & Hla & Ea)]; [lia| |].
  - rewrite (Hm _ _ Hc), (Hb' _ _ Hc). auto.
  - assert (Hin : In a (map (fun p => snd (fst p)) order)).
    { apply (Permutation_in a (Permutation_sym Hp)). apply in_seq. lia. }
    apply in_map_iff in Hin. destruct Hin as ([[h a'] j] & Ea' & Hin). simpl in Ea'. subst a'.
    assert (Hdf : differ s (h, a, j) = false).
    { destruct (differ s (h, a, j)) eqn:E; auto. rewrite <- Hd. symmetry. apply existsb_exists. eauto. }
    unfold differ in Hdf. apply negb_false_iff, Nat.eqb_eq in Hdf. simpl in Hdf.
    rewrite Forall_forall in Hok. destruct (Hok _ Hin) as (_ & -> & _).
    destruct (Ha a Hla) as [_ E]. rewrite Ea in *. congruence.
Qed.

Lemma wsol_no_difference order : Forall wentry_ok order -> existsb (differ sg) order = false.
Proof.
  intros Hok. destruct (existsb (differ sg) order) eqn:E; auto. exfalso.
  apply existsb_exists in E. destruct E as ([[h i] j] & Hin & E). unfold differ in E. simpl in E.
  rewrite Forall_forall in Hok. destruct (Hok _ Hin) as (Hi & -> & _).
  destruct (ws_ag _ _ _ _ _ Hss) as (_ & _ & _ & H). destruct (H i Hi) as [_ E'].
  rewrite E', Nat.eqb_refl in E. discriminate.
Qed.
End Children.
End Main.
