(** How far rounding moves the prices in the shortest path phase: every assigned
    column stays cheapest for its row up to a slack that each search enlarges by
    a known factor. *)
From Coq Require Import List Arith Bool Lia ZArith Reals Lra Classical.
From Flocq Require Import Core.
Import ListNotations.
From Verif Require Import Res Scalar Lap LapBase LapArr LapDij FloatBase FloatExt LapRnd LapRndArr LapRndDij.
Local Open Scope nat_scope.
Local Open Scope R_scope.

Section Err.
Variables (n m : nat) (C : list (ext R)).
Hypothesis HC : wfC n m C.
Hypothesis Hhall : hall n m C.
Hypothesis Hm : (Z.of_nat m < 100000)%Z.
Variables (B dl : R) (grid : R -> Prop).
Hypothesis HA : arith m B dl grid.
Hypothesis Hcost : forall i j, (i < n)%nat -> (j < m)%nat -> finb m C i j = true -> Rabs (cr m C i j) <= B.
Hypothesis Hgrid : forall i j, (i < n)%nat -> (j < m)%nat -> finb m C i j = true -> grid (cr m C i j).

Notation wcore := (wcore n m C).
Notation assigned := (assigned m).
Notation av := (av m C).
Notation rc := (rc m C).

(** Prices whose reduced costs are tight up to [eps]. *)
Record ecore (eps : R) (rs cs : list (option nat)) (v : list (ext R)) : Prop := {
  ec_w : wcore rs cs v;
  ec_pos : forall j, (j < m)%nat -> lk v j = false -> vr v j <= eps;
  ec_un : forall j, (j < m)%nat -> nth j cs None = None -> vr v j = 0;
  ec_near : forall j i k, (j < m)%nat -> nth j cs None = Some i -> lk v j = false ->
     (k < m)%nat -> av v i k = true -> rc v i j <= rc v i k + eps;
  ec_grid : forall j, (j < m)%nat -> lk v j = false -> grid (vr v j);
  ec_bnd : forall j, (j < m)%nat -> lk v j = false -> Rabs (vr v j) <= 12 * INR m * B }.

Section Search.
Variables (rowsol colsol : list (option nat)) (v : list (ext R)) (f : nat) (eps : R).
Hypothesis Heps : 0 <= eps.
Hypothesis Hec : ecore eps rowsol colsol v.
Hypothesis Hf : (f < n)%nat.
Hypothesis Hfree : ~ assigned colsol f.

Let Hcore : wcore rowsol colsol v := ec_w _ _ _ _ Hec.
Let Hlv : length v = m := wc_lv _ _ _ _ _ _ Hcore.
Let Hlc : length colsol = m := wc_lc _ _ _ _ _ _ Hcore.
Let Hlr : length rowsol = n := wc_lr _ _ _ _ _ _ Hcore.

Notation "cl @ p" := (nth p cl 0%nat) (at level 20).
Notation dat d j := (nth j d NaN).
Notation col j := (nth j colsol None).

Let HB : 0 < B.
Proof. apply HA. Qed.
Let Hdl : 0 <= dl <= B / 64.
Proof. apply HA. Qed.
Let HmB : (0 < m)%nat -> B <= INR m * B.
Proof. intros H. apply (mB m B dl grid HA 0). auto. Qed.

(** How much a label can fall below the one it was computed from. *)
Definition eta : R := eps + 4 * dl.
Lemma eta_ge : 0 <= eta /\ eps <= eta /\ 4 * dl <= eta /\ eta = eps + 4 * dl.
Proof. unfold eta. lra. Qed.

Definition lbl (q : R) (k : nat) (x : ext R) : Prop :=
  x = PInf \/ exists r, x = Fin r /\ grid r /\ Rabs (vr v k + r) <= q.
Definition lime (low : nat) : R := (3 * INR low + 2) * B.

Lemma lime_le p q : (p <= q)%nat -> lime p <= lime q.
Proof. intros H. apply le_INR in H. unfold lime. apply Rmult_le_compat_r; lra. Qed.
Lemma lime_S p : lime (S p) = lime p + 3 * B.
Proof. unfold lime. rewrite S_INR. ring. Qed.
Lemma lime_m low : (low <= m)%nat -> (0 < m)%nat -> lime low <= 5 * INR m * B.
Proof. intros H H0. pose proof (lime_le _ _ H). specialize (HmB H0). unfold lime in *. lra. Qed.

Lemma lbl_le q q' k x : q <= q' -> lbl q k x -> lbl q' k x.
Proof. intros H [->|(r & -> & G & X)]; [left; auto|right; exists r; repeat split; auto; lra]. Qed.
Lemma lbl_up q k x : lbl q k x -> isup x.
Proof. intros [->|(r & -> & _)]; [left|right]; eauto. Qed.
Lemma isF_vr d k : isF (dat d k) -> dat d k = Fin (vr d k).
Proof. intros [r E]. unfold vr. rewrite E. auto. Qed.
Lemma lbl_fin q d k : lbl q k (dat d k) -> isF (dat d k) -> grid (vr d k) /\ Rabs (vr v k + vr d k) <= q.
Proof. intros [E|(r & E & G & X)] [r' E']; rewrite E' in E; inversion E; subst. unfold vr at 1 3. rewrite E'. auto. Qed.

(** The rounded reduced cost. *)
Lemma red_e i j : (i < n)%nat -> (j < m)%nat ->
  (av v i j = true /\ exists x, nsub roundN (c m C i j) (nth j v NaN) = Fin x /\ grid x /\ Rabs (x - rc v i j) <= dl) \/
  (av v i j = false /\ nsub roundN (c m C i j) (nth j v NaN) = PInf).
Proof.
  intros Hi Hj. unfold LapBase.av.
  destruct (c_cases n m C HC i j Hi Hj) as [[Ec Ef]|[Ec Ef]];
  destruct (w_cases n m C _ _ _ j Hcore Hj) as [(Ev & El)|(Ev & El)]; rewrite Ec, Ev, Ef, El; simpl andb; try (right; split; reflexivity).
  left. split; auto. exists (rnd (cr m C i j - vr v j)).
  apply (ar_sub _ _ _ _ HA); auto; [apply (ec_grid _ _ _ _ Hec); auto|].
  pose proof (Hcost _ _ Hi Hj Ef) as X. pose proof (ec_bnd _ _ _ _ Hec j Hj El) as Y. apply Rabs_le_inv in X. apply Rabs_le_inv in Y.
  assert (0 < m)%nat by lia. specialize (HmB H). apply Rabs_le. lra.
Qed.

Definition stepe (d : list (ext R)) (pred cl : list nat) (bound k : nat) : Prop :=
  let i := nth k pred 0%nat in
  av v i k = true /\
  ((i = f /\ Rabs (vr d k - rc v f k) <= dl) \/
   exists q, (q < bound)%nat /\ col (cl @ q) = Some i /\ Rabs (vr d k - (vr d (cl @ q) + rc v i k - rc v i (cl @ q))) <= 4 * dl).

Definition rele (low : nat) (d : list (ext R)) (cl : list nat) (p : nat) : Prop :=
  forall i, col (cl @ p) = Some i -> forall k, (k < m)%nat -> av v i k = true ->
    isF (dat d k) /\ vr d k <= vr d (cl @ p) + rc v i k - rc v i (cl @ p) + (eps + INR low * eta).

Record ebase (d : list (ext R)) (pred cl : list nat) (low up : nat) : Prop := {
  eb_ld : length d = m;
  eb_lp : length pred = m;
  eb_perm : perm_list m cl;
  eb_up : (low <= up <= m)%nat;
  eb_val : forall k, (k < m)%nat -> lbl (lime low) k (dat d k);
  eb_pred : forall k, (k < m)%nat -> (nth k pred 0%nat < n)%nat;
  eb_src : forall k, (k < m)%nat -> av v f k = true -> isF (dat d k) /\ vr d k <= rc v f k + dl;
  eb_asg : forall p, (p < low)%nat -> exists i, col (cl @ p) = Some i;
  eb_fin : forall p, (p < up)%nat -> isF (dat d (cl @ p));
  eb_tight : forall p, (p < m)%nat -> isF (dat d (cl @ p)) -> stepe d pred cl (Nat.min p low) (cl @ p);
  eb_ord : forall p q, (p < low)%nat -> (p < q < m)%nat -> isF (dat d (cl @ q)) ->
     vr d (cl @ p) <= vr d (cl @ q) + INR low * eta }.

Lemma stepe_lk d pred cl b k : stepe d pred cl b k -> lk v k = false.
Proof. intros [H _]. apply av_split in H. tauto. Qed.

Lemma exists_todo_e d pred cl low up :
  ebase d pred cl low up -> (forall p, (p < low)%nat -> rele low d cl p) ->
  exists p, (low <= p < m)%nat /\ isF (dat d (cl @ p)).
Proof.
  intros HE Hx.
  pose proof (eb_perm _ _ _ _ _ HE) as HP. pose proof HP as (Hl & Hnd & Hlt).
  pose proof (eb_up _ _ _ _ _ HE) as Hup.
  apply NNPP. intros Hno0.
  assert (Hno : forall k, (k < m)%nat -> isF (dat d k) -> In k (firstn low cl)).
  { intros k Hk E. destruct (perm_surj _ _ _ HP Hk) as (p & Hp & Ep).
    destruct (Nat.lt_ge_cases p low).
    - rewrite <- Ep. rewrite <- (nth_firstn cl low p) by auto. apply nth_In. rewrite firstn_length. lia.
    - exfalso. apply Hno0. exists p. rewrite Ep. split; auto. }
  destruct (w_escape n m C Hhall rowsol colsol v (firstn low cl) f) as (k & Hk & Hav & Hnin); auto.
  - rewrite <- (firstn_skipn low cl) in Hnd.
    clear -Hnd. induction (firstn low cl); [constructor|]. simpl in Hnd. inversion Hnd; subst.
    constructor; auto. rewrite in_app_iff in H1. tauto.
  - intros j Hj. apply (In_nth _ _ 0%nat) in Hj. destruct Hj as (p & Hp & Ep).
    rewrite firstn_length in Hp. rewrite nth_firstn in Ep by lia. subst j.
    assert (p < low)%nat by lia.
    split; [apply perm_lt; auto; lia|]. split.
    { eapply stepe_lk. apply (eb_tight _ _ _ _ _ HE); [lia|]. apply (eb_fin _ _ _ _ _ HE). lia. }
    destruct (eb_asg _ _ _ _ _ HE p) as [i Ei]; auto.
    exists i. split; auto. intros k Hk Hav. apply Hno; auto. apply (Hx p) with i; auto.
  - apply Hnin, Hno; auto. apply (eb_src _ _ _ _ _ HE); auto.
Qed.

(** Closed columns belong to distinct rows other than [f]. *)
Lemma closed_lt cl low : perm_list m cl -> (low <= m)%nat ->
  (forall p, (p < low)%nat -> exists i, col (cl @ p) = Some i) -> (low < n)%nat.
Proof.
  intros HP Hlow Hasg. pose proof HP as (Hl & Hnd & Hlt).
  assert (Hc : forall j, In j (firstn low cl) -> (j < m)%nat /\ exists i, col j = Some i).
  { intros j Hj. apply (In_nth _ _ 0%nat) in Hj. destruct Hj as (p & Hp & Ep).
    rewrite firstn_length in Hp. rewrite nth_firstn in Ep by lia. subst j.
    split; [apply perm_lt; auto; lia|apply Hasg; lia]. }
  assert (X : (length (f :: rows_of colsol (firstn low cl)) <= length (seq 0 n))%nat).
  { apply NoDup_incl_length.
    - constructor.
      + rewrite rows_of_in. intros (j & Hj & Ej). apply Hfree. exists j. split; auto. apply Hc; auto.
      + eapply w_rows_nodup; eauto; [|intros; apply Hc; auto].
        rewrite <- (firstn_skipn low cl) in Hnd. clear -Hnd. induction (firstn low cl); [constructor|].
        simpl in Hnd. inversion Hnd; subst. constructor; auto. rewrite in_app_iff in H1. tauto.
    - intros i [<-|Hi]; [apply in_seq; lia|]. apply rows_of_in in Hi. destruct Hi as (j & Hj & Ej).
      destruct (Hc j Hj) as [Hjm _]. destruct (wc_a1 _ _ _ _ _ _ Hcore _ _ Hjm Ej). apply in_seq; lia. }
  simpl in X. rewrite rows_of_length, firstn_length, seq_length in X by (intros; apply Hc; auto). lia.
Qed.

Lemma find_min_e F d pred cl low up :
  ebase d pred cl low up -> up = low ->
  (exists p, (low <= p < m)%nat /\ isF (dat d (cl @ p))) ->
  wp F (find_min roundN m d cl low up)
    (fun r => let '(cl', up', mn) := r in
       exists mu, mn = Fin mu /\ ebase d pred cl' low up' /\ (low < up')%nat /\
         (forall p, (p < low)%nat -> cl' @ p = cl @ p) /\
         (forall p, (low <= p < up')%nat -> vr d (cl' @ p) = mu) /\
         (forall p, (low <= p < m)%nat -> isF (dat d (cl' @ p)) -> mu <= vr d (cl' @ p))).
Proof.
  intros HE -> (p0 & Hp0 & x0 & Ex0).
  pose proof (eb_perm _ _ _ _ _ HE) as HP. pose proof HP as (Hl & Hnd & Hlt).
  pose proof (eb_ld _ _ _ _ _ HE) as Hld.
  assert (Hval : forall k, (k < m)%nat -> isup (dat d k)) by (intros; eapply lbl_up, (eb_val _ _ _ _ _ HE); auto).
  unfold find_min.
  rewrite (get_ok _ _ 0%nat) by lia. cbn [bind].
  assert (Hc0 : (cl @ low < m)%nat) by (apply perm_lt; auto; lia).
  rewrite (get_ok _ _ NaN) by lia. cbn [bind].
  set (I := fun (k : nat) (s : list nat * nat * ext R) =>
    let '(cl', up', mn) := s in
    perm_list m cl' /\ (low < up' <= k)%nat /\ isup mn /\
    (forall p, (p < low)%nat -> cl' @ p = cl @ p) /\
    (forall p, (low <= p < up')%nat -> dat d (cl' @ p) = mn) /\
    (forall p, (up' <= p < k)%nat -> ele mn (dat d (cl' @ p)))).
  eapply wp_conseq.
  { apply (wp_for F (m - S low) (S low) _ I).
    - split; [apply HP|]. split; [lia|].
      split; [apply Hval; auto|].
      split; [auto|]. split; [|intros; lia].
      intros p Hp. assert (p = low) by lia. subst p; auto.
    - intros k [[cl' up'] mn] Hk (HP' & Hup' & Hmn & Hpre & Hsc & Htd).
      pose proof HP' as (Hl' & _).
      assert (Hck : (cl' @ k < m)%nat) by (apply perm_lt; auto; lia).
      rewrite (get_ok _ _ 0%nat) by lia. cbn [bind].
      rewrite (get_ok _ _ NaN) by lia. cbn [bind].
      change (nle roundN) with (nle extR). change (nlt roundN) with (nlt extR).
      pose proof (Hval _ Hck) as Hh.
      destruct (nle extR (dat d (cl' @ k)) mn) eqn:E1.
      + destruct (nlt extR (dat d (cl' @ k)) mn) eqn:E2.
        * rewrite (get_ok _ _ 0%nat) by lia. cbn [bind].
          rewrite set_ok by lia. cbn [bind].
          rewrite set_ok by (rewrite upd_length; lia). cbn [bind].
          apply wp_ret. fold (swp cl' k low).
          split; [apply swp_perm; auto; lia|].
          split; [lia|]. split; [auto|].
          split; [|split].
          -- intros p Hp. rewrite (swp_nth m) by (auto; lia).
             destruct (Nat.eqb_spec p low), (Nat.eqb_spec p k); try lia. auto.
          -- intros p Hp. assert (p = low) by lia. subst p. rewrite (swp_nth m) by (auto; lia).
             rewrite Nat.eqb_refl. auto.
          -- intros p Hp. rewrite (swp_nth m) by (auto; lia).
             apply nlt_true in E2; auto.
             destruct (Nat.eqb_spec p low); [lia|]. destruct (Nat.eqb_spec p k).
             ++ rewrite (Hsc low) by lia. auto.
             ++ destruct (Nat.lt_ge_cases p up').
                ** rewrite (Hsc p) by lia. auto.
                ** assert (ele mn (dat d (cl' @ p))) by (apply Htd; lia).
                   eapply ele_trans with mn; auto. apply Hval, perm_lt; auto; lia.
        * pose proof (nle_nlt_false _ _ Hh Hmn E1 E2) as Eh.
          rewrite (get_ok _ _ 0%nat) by lia. cbn [bind].
          rewrite set_ok by lia. cbn [bind].
          rewrite set_ok by (rewrite upd_length; lia). cbn [bind].
          apply wp_ret. fold (swp cl' k up').
          split; [apply swp_perm; auto; lia|].
          split; [lia|]. split; [auto|].
          split; [|split].
          -- intros p Hp. rewrite (swp_nth m) by (auto; lia).
             destruct (Nat.eqb_spec p up'), (Nat.eqb_spec p k); try lia. auto.
          -- intros p Hp. rewrite (swp_nth m) by (auto; lia).
             destruct (Nat.eqb_spec p up'); auto.
             destruct (Nat.eqb_spec p k); [lia|]. apply Hsc; lia.
          -- intros p Hp. rewrite (swp_nth m) by (auto; lia).
             destruct (Nat.eqb_spec p up'); [lia|]. destruct (Nat.eqb_spec p k).
             ++ apply Htd; lia.
             ++ apply Htd; lia.
      + apply wp_ret. simpl. repeat split; auto; try lia; try apply HP'.
        intros p Hp. destruct (Nat.eq_dec p k) as [->|].
        * apply nle_false; auto.
        * apply Htd; lia. }
  intros [[cl' up'] mn] (HP' & Hup' & Hmn & Hpre & Hsc & Htd).
  replace (S low + (m - S low))%nat with m in * by lia.
  assert (Hsame : forall p, (low <= p < m)%nat -> exists q, (low <= q < m)%nat /\ cl' @ q = cl @ p).
  { intros p Hp. destruct (perm_surj m cl' (cl @ p) HP') as (q & Hq & Eq).
    - apply perm_lt; auto; lia.
    - exists q. split; auto. split; auto. destruct (Nat.lt_ge_cases q low); auto. exfalso.
      rewrite Hpre in Eq by auto. apply (perm_inj m) in Eq; auto; lia. }
  assert (Hsame' : forall q, (low <= q < m)%nat -> exists p, (low <= p < m)%nat /\ cl' @ q = cl @ p).
  { intros p Hp. destruct (perm_surj m cl (cl' @ p) HP) as (q & Hq & Eq).
    - apply perm_lt; auto; lia.
    - exists q. split; auto. split; auto. destruct (Nat.lt_ge_cases q low); auto. exfalso.
      rewrite <- Hpre in Eq by auto. apply (perm_inj m) in Eq; auto; lia. }
  destruct (Hsame p0 Hp0) as (q0 & Hq0 & Eq0).
  assert (exists mu, mn = Fin mu) as [mu ->].
  { destruct (Nat.lt_ge_cases q0 up').
    - rewrite <- (Hsc q0) by lia. rewrite Eq0. eauto.
    - assert (ele mn (dat d (cl' @ q0))) as X by (apply Htd; lia).
      rewrite Eq0, Ex0 in X. destruct Hmn as [->|[r ->]]; eauto. discriminate. }
  assert (Hsc' : forall p, (low <= p < up')%nat -> vr d (cl' @ p) = mu).
  { intros p Hp. unfold vr. rewrite Hsc by auto. auto. }
  exists mu. split; auto. split; [|split; [lia|split; [auto|split; [auto|]]]].
  - destruct HE as [H1 H2 H3 H4 H5 H6 H7 H8 H9 H10 H11]. constructor; auto; try lia.
    + intros p Hp. rewrite Hpre by auto. auto.
    + intros p Hp. destruct (Nat.lt_ge_cases p low); [rewrite Hpre by auto; apply H9; auto|].
      rewrite Hsc by lia. red. eauto.
    + assert (Hst : forall b k, (b <= low)%nat -> stepe d pred cl b k -> stepe d pred cl' b k).
      { intros b k Hb [X Y]. split; auto. destruct Y as [Y|(q & Hq & Y)]; auto. right. exists q. rewrite Hpre by lia. auto. }
      intros p Hp E. destruct (Nat.lt_ge_cases p low).
      * rewrite Hpre in E |- * by auto. apply Hst; [lia|]. auto.
      * destruct (Hsame' p) as (p' & Hp' & Ep'); [lia|].
        rewrite Ep' in E |- *. replace (Nat.min p low) with (Nat.min p' low) by lia. apply Hst; [lia|]. apply H10; auto; lia.
    + intros p q Hp Hq E. rewrite (Hpre p) by auto. destruct (Nat.lt_ge_cases q low).
      * rewrite Hpre in E |- * by auto. apply H11; auto.
      * destruct (Hsame' q) as (q' & Hq' & Eq'); [lia|]. rewrite Eq' in E |- *. apply H11; auto; lia.
  - intros p Hp E. destruct (Nat.lt_ge_cases p up'); [rewrite Hsc' by lia; lra|].
    assert (X : ele (Fin mu) (dat d (cl' @ p))) by (apply Htd; lia). rewrite (isF_vr _ _ E) in X. apply ele_F in X. auto.
Qed.

(** How much each price falls: [g] is the change of the price. *)
Notation certw := (certw n m C colsol v f).

Record founde (st : dij (T := ext R)) (e : nat) (mu : R) (low : nat) (g : nat -> R) : Prop := {
  fe_min : p_min st = Fin mu;
  fe_mu : grid mu /\ Rabs mu <= lime m;
  fe_cert : certw (p_pred st) (p_collist st) low e;
  fe_last : (p_last st <= low)%nat;
  fe_low : (low < n)%nat;
  fe_ld : length (p_d st) = m;
  fe_in : forall p, (p < p_last st)%nat -> exists x, dat (p_d st) (p_collist st @ p) = Fin x /\ grid x /\
     Rabs (vr v (p_collist st @ p) + x) <= lime m /\ g (p_collist st @ p) = x - mu;
  fe_out : forall p, (p_last st <= p < m)%nat -> g (p_collist st @ p) = 0;
  fe_rel : forall p i k, (p < low)%nat -> col (p_collist st @ p) = Some i -> (k < m)%nat -> av v i k = true ->
     g k <= rc v i k - rc v i (p_collist st @ p) + g (p_collist st @ p) + (eps + INR n * eta);
  fe_src : forall k, (k < m)%nat -> av v f k = true -> g k <= rc v f k - mu + (dl + eta);
  fe_all : forall k, (k < m)%nat -> g k <= INR n * eta;
  fe_path : forall k, onpath (p_collist st) low e k ->
     let i := nth k (p_pred st) 0%nat in
     (i = f /\ rc v f k - dl - mu <= g k) \/
     (exists q, (q < low)%nat /\ col (p_collist st @ q) = Some i /\
        g (p_collist st @ q) + rc v i k - rc v i (p_collist st @ q) - 4 * dl <= g k) }.

Lemma gain_fun d cl last mu : perm_list m cl -> (last <= m)%nat -> exists g : nat -> R,
  (forall p, (p < last)%nat -> g (cl @ p) = vr d (cl @ p) - mu) /\
  (forall p, (last <= p < m)%nat -> g (cl @ p) = 0).
Proof.
  intros HP Hlast. exists (fun k => if in_dec Nat.eq_dec k (firstn last cl) then vr d k - mu else 0).
  pose proof HP as (Hl & _). split.
  - intros p Hp. destruct (in_dec Nat.eq_dec (cl @ p) (firstn last cl)) as [|N]; auto. exfalso. apply N.
    rewrite <- (nth_firstn cl last p) by auto. apply nth_In. rewrite firstn_length. lia.
  - intros p Hp. destruct (in_dec Nat.eq_dec (cl @ p) (firstn last cl)) as [X|]; auto. exfalso.
    apply (In_nth _ _ 0%nat) in X. destruct X as (q & Hq & Eq). rewrite firstn_length in Hq. rewrite nth_firstn in Eq by lia.
    apply (perm_inj m) in Eq; auto; lia.
Qed.

Lemma make_founde d d' pred cl low up low' up' last mu e q oe :
  ebase d' pred cl low up -> (low <= q < m)%nat -> cl @ q = e -> col e = None -> isF (dat d' e) -> vr d' e = mu ->
  (last <= low)%nat -> length d = m ->
  (forall p, (p < last)%nat -> dat d (cl @ p) = dat d' (cl @ p)) ->
  (forall p, (last <= p < low)%nat -> vr d' (cl @ p) = mu) ->
  (forall p, (last <= p < m)%nat -> isF (dat d' (cl @ p)) -> mu - eta <= vr d' (cl @ p)) ->
  (forall p i k, (p < low)%nat -> col (cl @ p) = Some i -> (k < m)%nat -> av v i k = true ->
     (isF (dat d' k) /\ vr d' k <= vr d' (cl @ p) + rc v i k - rc v i (cl @ p) + (eps + INR low * eta)) \/
     (vr d' (cl @ p) = mu /\ exists pk, (last <= pk < m)%nat /\ cl @ pk = k)) ->
  exists g, founde (mkDij d pred cl low' up' last (Fin mu) oe) e mu low g.
Proof.
  intros HE Hq Eq Ee EF Emu Hlast Hld Hsame Hbat Hopen Hrel.
  pose proof eta_ge as (T1 & T2 & T3 & _).
  pose proof HE as [B1 B2 B3 B4 B5 B6 B7 B8 B9 B10 B11].
  assert (Hlm : (low <= m)%nat) by lia.
  pose proof (closed_lt cl low B3 Hlm B8) as Hln.
  assert (HlnR : INR low + 1 <= INR n) by (rewrite <- S_INR; apply le_INR; lia).
  pose proof (pos_INR low) as Hl0.
  assert (E1 : (INR low + 1) * eta <= INR n * eta) by (apply Rmult_le_compat_r; lra).
  assert (E0 : 0 <= INR low * eta) by (apply Rmult_le_pos; lra).
  assert (Hem : (e < m)%nat) by (subst e; apply perm_lt; auto; lia).
  assert (Hle : lk v e = false) by (apply (wc_un _ _ _ _ _ _ Hcore); auto).
  destruct (gain_fun d' cl last mu B3) as (g & Hg1 & Hg2); [lia|].
  assert (Hg3 : forall p, (p < low)%nat -> g (cl @ p) = vr d' (cl @ p) - mu).
  { intros p Hp. destruct (Nat.lt_ge_cases p last); auto. rewrite Hg2, Hbat by lia. lra. }
  assert (Hlk : forall p, (p < low)%nat -> lk v (cl @ p) = false).
  { intros p Hp. eapply stepe_lk. apply B10; [lia|]. apply B9; lia. }
  exists g. constructor; cbn [p_d p_pred p_collist p_last p_min]; auto.
  - destruct (lbl_fin _ _ _ (B5 e Hem) EF) as [G X]. rewrite Emu in *. split; auto.
    rewrite (ec_un _ _ _ _ Hec), Rplus_0_l in X by auto. eapply Rle_trans; [exact X|]. apply lime_le; lia.
  - assert (Hst : forall b k, stepe d' pred cl b k -> stepw m C colsol v f pred cl b k).
    { intros b k [X Y]. split; auto. destruct Y as [[Y _]|(q' & Hq' & Y & _)]; eauto. }
    constructor; auto.
    + replace low with (Nat.min q low) at 1 by lia. subst e. apply Hst, B10; auto; lia.
    + intros p Hp. replace p with (Nat.min p low) at 1 by lia. apply Hst, B10; try lia. apply B9; lia.
  - intros p Hp. assert (Hpm : (cl @ p < m)%nat) by (apply perm_lt; auto; lia).
    assert (X : isF (dat d' (cl @ p))) by (apply B9; lia). destruct (lbl_fin _ _ _ (B5 _ Hpm) X) as [G Y].
    exists (vr d' (cl @ p)). split; [rewrite Hsame by auto; apply isF_vr; auto|]. split; auto. split; auto.
    eapply Rle_trans; [exact Y|]. apply lime_le; lia.
  - intros p i k Hp Ei Hk Hav. rewrite Hg3 by auto.
    destruct (Hrel p i k Hp Ei Hk Hav) as [[HF Hr]|[Ep (pk & Hpk & <-)]].
    + destruct (perm_surj _ _ _ B3 Hk) as (pk & Hpk & <-).
      destruct (Nat.lt_ge_cases pk last); [rewrite Hg1 by auto; lra|]. rewrite Hg2 by lia.
      specialize (Hopen pk (conj H Hpk) HF). lra.
    + rewrite Hg2 by auto.
      assert (Hpm : (cl @ p < m)%nat) by (apply perm_lt; auto; lia).
      pose proof (ec_near _ _ _ _ Hec _ _ _ Hpm Ei (Hlk p Hp) Hk Hav). lra.
  - intros k Hk Hav. destruct (B7 k Hk Hav) as [HF Hr]. destruct (perm_surj _ _ _ B3 Hk) as (pk & Hpk & <-).
    destruct (Nat.lt_ge_cases pk last); [rewrite Hg1 by auto; lra|]. rewrite Hg2 by lia.
    specialize (Hopen pk (conj H Hpk) HF). lra.
  - intros k Hk. destruct (perm_surj _ _ _ B3 Hk) as (pk & Hpk & <-).
    destruct (Nat.lt_ge_cases pk last).
    + rewrite Hg1 by auto. pose proof (B11 pk q ltac:(lia) ltac:(lia)) as X. rewrite Eq in X. specialize (X EF). lra.
    + rewrite Hg2 by lia. lra.
  - intros k [->|(p & Hp & ->)].
    + assert (Ge : g e = 0) by (subst e; apply Hg2; lia). rewrite Ge.
      rewrite <- Eq in EF. destruct (B10 q ltac:(lia) EF) as [_ Y]. rewrite Eq in Y. rewrite Nat.min_r in Y by lia.
      destruct Y as [[Y Z]|(q' & Hq' & Y & Z)]; rewrite Emu in Z; apply Rabs_le_inv in Z; [left; split; auto; lra|].
      right. exists q'. split; auto. split; auto. rewrite Hg3 by auto. lra.
    + rewrite Hg3 by auto.
      destruct (B10 p ltac:(lia) (B9 p ltac:(lia))) as [_ Y]. rewrite Nat.min_l in Y by lia.
      destruct Y as [[Y Z]|(q' & Hq' & Y & Z)]; apply Rabs_le_inv in Z; [left; split; auto; lra|].
      right. exists q'. split; [lia|]. split; auto. rewrite Hg3 by lia. lra.
Qed.

Record dinve (st : dij (T := ext R)) : Prop := {
  de_base : ebase (p_d st) (p_pred st) (p_collist st) (p_low st) (p_up st);
  de_rel : forall p, (p < p_low st)%nat -> rele (p_low st) (p_d st) (p_collist st) p;
  de_end : p_end st = None;
  de_last : (p_last st <= p_low st)%nat;
  de_min : p_up st = 0%nat \/ exists mu, p_min st = Fin mu /\
     (forall p, (p_last st <= p < p_up st)%nat -> vr (p_d st) (p_collist st @ p) = mu) /\
     (forall p, (p_last st <= p < m)%nat -> isF (dat (p_d st) (p_collist st @ p)) -> mu - eta <= vr (p_d st) (p_collist st @ p));
  de_scan : forall p, (p_low st <= p < p_up st)%nat -> exists i, col (p_collist st @ p) = Some i }.

Definition step_poste (st st' : dij (T := ext R)) : Prop :=
  match p_end st' with
  | Some e => exists mu low g, founde st' e mu low g
  | None => dinve st' /\ p_low st' = S (p_low st)
  end.

Lemma scan_e F st :
  ebase (p_d st) (p_pred st) (p_collist st) (p_low st) (p_up st) ->
  (forall p, (p < p_low st)%nat -> rele (p_low st) (p_d st) (p_collist st) p) ->
  p_end st = None -> (p_last st <= p_low st)%nat ->
  (exists mu, p_min st = Fin mu /\
     (forall p, (p_last st <= p < p_up st)%nat -> vr (p_d st) (p_collist st @ p) = mu) /\
     (forall p, (p_last st <= p < m)%nat -> isF (dat (p_d st) (p_collist st @ p)) -> mu - eta <= vr (p_d st) (p_collist st @ p))) ->
  (forall p, (p_low st <= p < p_up st)%nat -> exists i, col (p_collist st @ p) = Some i) ->
  (p_low st < p_up st)%nat ->
  wp F (scan_column roundN m C v colsol st) (step_poste st).
Proof.
  destruct st as [d0 pred0 cl0 low up0 last mn e0]. cbn [p_d p_pred p_collist p_low p_up p_last p_min p_end].
  intros HE HR -> Hlast (mu & -> & Hbat & Hopen) Hasg Hlu.
  pose proof eta_ge as (T1 & T2 & T3 & Teta).
  pose proof (eb_perm _ _ _ _ _ HE) as HP0. pose proof HP0 as (Hl0 & _).
  pose proof (eb_ld _ _ _ _ _ HE) as Hld0. pose proof (eb_lp _ _ _ _ _ HE) as Hlp0.
  pose proof (eb_up _ _ _ _ _ HE) as Hup0.
  assert (Hm0 : (0 < m)%nat) by lia. pose proof (HmB Hm0) as HmB0.
  assert (HlowR : 0 <= INR low) by apply pos_INR.
  assert (HSl : INR (S low) * eta = INR low * eta + eta) by (rewrite S_INR; ring).
  assert (Hle0 : 0 <= INR low * eta) by (apply Rmult_le_pos; lra).
  unfold scan_column. cbn [p_d p_pred p_collist p_low p_up p_last p_min p_end].
  rewrite (get_ok _ _ 0%nat) by lia. cbn [bind].
  set (j1 := cl0 @ low).
  assert (Hj1 : (j1 < m)%nat) by (apply perm_lt; auto; lia).
  rewrite (get_ok _ _ None) by lia. cbn [bind].
  destruct (Hasg low) as [i Ei]; [lia|]. fold j1 in Ei. rewrite Ei. cbn [idx bind].
  destruct (wc_a1 _ _ _ _ _ _ Hcore _ _ Hj1 Ei) as [Hi _].
  rewrite (get_c n m C HC) by auto. cbn [bind].
  rewrite (get_ok _ _ NaN) by lia. cbn [bind].
  assert (HF1 : isF (dat d0 j1)) by (apply (eb_fin _ _ _ _ _ HE); lia).
  assert (Hlk1 : lk v j1 = false).
  { unfold j1. eapply stepe_lk. apply (eb_tight _ _ _ _ _ HE); [lia|]. exact HF1. }
  assert (Hav1 : av v i j1 = true).
  { unfold LapBase.av. rewrite (wc_fin _ _ _ _ _ _ Hcore _ _ Hj1 Ei), Hlk1. auto. }
  assert (Hd1 : vr d0 j1 = mu) by (apply Hbat; lia).
  assert (Hnear : forall k, (k < m)%nat -> av v i k = true -> rc v i j1 <= rc v i k + eps).
  { intros k Hk Ha. apply (ec_near _ _ _ _ Hec j1 i k); auto. }
  destruct (lbl_fin _ _ _ (eb_val _ _ _ _ _ HE j1 Hj1) HF1) as [Gmu P1]. rewrite Hd1 in Gmu, P1.
  pose proof (lime_m low ltac:(lia) Hm0) as Hlim.
  apply Rabs_le_inv in P1.
  pose proof (Hcost _ _ Hi Hj1 (proj1 (av_split _ _ _ _ _ Hav1))) as C1. apply Rabs_le_inv in C1.
  destruct (red_e i j1 Hi Hj1) as [(_ & x1 & E1 & Gx1 & Bx1)|[X _]]; [|congruence].
  apply Rabs_le_inv in Bx1.
  cbv zeta. rewrite E1.
  destruct (ar_sub _ _ _ _ HA x1 mu Gx1 Gmu) as (Eh & Gh & Bh).
  { unfold LapBase.rc in Bx1. apply Rabs_le. lra. }
  rewrite Eh. set (h := rnd (x1 - mu)) in *. apply Rabs_le_inv in Bh.
  set (I := fun (k : nat) (s : list (ext R) * list nat * list nat * nat * option nat) =>
    let '(d, pred, cl, up, e) := s in
    e = None /\ (up0 <= up <= k)%nat /\
    ebase d pred cl (S low) up /\
    (forall p, (p < up0)%nat -> cl @ p = cl0 @ p) /\
    (forall j, isF (dat d0 j) -> isF (dat d j) /\ vr d j <= vr d0 j) /\
    (forall p, (p < up0)%nat -> dat d (cl0 @ p) = dat d0 (cl0 @ p)) /\
    (forall p, (p < up)%nat -> exists i, col (cl @ p) = Some i) /\
    (forall p, (last <= p < up)%nat -> vr d (cl @ p) = mu) /\
    (forall p, (last <= p < m)%nat -> isF (dat d (cl @ p)) -> mu - eta <= vr d (cl @ p)) /\
    (forall p, (p < k)%nat -> (p < m)%nat -> av v i (cl @ p) = true ->
       isF (dat d (cl @ p)) /\ vr d (cl @ p) <= mu + rc v i (cl @ p) - rc v i j1 + (eps + INR (S low) * eta))).
  set (J := fun (s : list (ext R) * list nat * list nat * nat * option nat) =>
    let '(d, pred, cl, up, e) := s in
    exists e', e = Some e' /\ exists mu' low' g, founde (mkDij d pred cl (S low) up last (Fin mu) e) e' mu' low' g).
  apply wp_bind. eapply wp_conseq.
  { apply (wp_for_break F (m - up0) up0 _ I J).
    - split; [auto|]. split; [lia|].
      pose proof HE as [B1 B2 B3 B4 B5 B6 B7 B8 B9 B10 B11].
      split; [|split; [auto|split; [|split; [auto|split; [|split; [auto|split; [auto|]]]]]]].
      + constructor; auto; try lia.
        * intros k Hk. eapply lbl_le; [|apply B5; auto]. apply lime_le; lia.
        * intros p Hp. destruct (Nat.eq_dec p low) as [->|]; [eauto|]. apply B8. lia.
        * intros p Hp E. destruct (B10 p Hp E) as [A B']. split; auto.
          destruct B' as [B'|(q & Hq & B')]; auto. right. exists q. split; auto; lia.
        * intros p q Hp Hq E. destruct (Nat.eq_dec p low) as [->|].
          -- fold j1. rewrite Hd1. specialize (Hopen q ltac:(lia) E). lra.
          -- specialize (B11 p q ltac:(lia) Hq E). lra.
      + intros j Hj. split; auto. lra.
      + intros p Hp. destruct (Nat.lt_ge_cases p low); [apply B8; auto|apply Hasg; lia].
      + intros p Hp Hpm Ha. split; [apply B9; auto|].
        assert (Hcp : (cl0 @ p < m)%nat) by (apply perm_lt; auto).
        pose proof (Hnear _ Hcp Ha). destruct (Nat.lt_ge_cases p low).
        * pose proof (B11 p low ltac:(lia) ltac:(lia) HF1) as X. fold j1 in X. rewrite Hd1 in X. lra.
        * rewrite Hbat by lia. lra.
    - intros k [[[[d pred] cl] up] e] Hk (-> & Hup & Hb & Hcl & Hdle & Hdsame & Hag & Hbt & Hop & Hrel).
      pose proof (eb_perm _ _ _ _ _ Hb) as HP. pose proof HP as (Hl & _).
      pose proof (eb_ld _ _ _ _ _ Hb) as Hld. pose proof (eb_lp _ _ _ _ _ Hb) as Hlp.
      assert (Hj : (cl @ k < m)%nat) by (apply perm_lt; auto; lia).
      rewrite (get_ok _ _ 0%nat) by lia. cbn [bind].
      rewrite (get_c n m C HC) by auto. cbn [bind].
      rewrite (get_ok _ _ NaN) by lia. cbn [bind].
      set (j := cl @ k) in *.
      change (nlt roundN) with (nlt extR). change (neq roundN) with (neq extR).
      destruct (red_e i j Hi Hj) as [(Hav & xj & Ej & Gxj & Bxj)|[Hav Ej]]; rewrite Ej.
      2:{ change (nsub roundN PInf (Fin h)) with (@PInf R).
        rewrite (get_ok _ _ NaN) by lia. cbn [bind]. rewrite lt_Px.
        apply wp_ret. unfold I. cbn [fst snd]. split; auto. split; [lia|]. split; [auto|]. split; [auto|].
        split; [auto|]. split; [auto|]. split; [auto|]. split; [auto|]. split; [auto|].
        intros p Hp Hpm Hap. destruct (Nat.eq_dec p k) as [->|]; [unfold j in Hav; congruence|]. apply Hrel; auto; lia. }
      apply Rabs_le_inv in Bxj. destruct (av_split _ _ _ _ _ Hav) as [Hfj Hlkj].
      pose proof (Hcost _ _ Hi Hj Hfj) as C2. apply Rabs_le_inv in C2.
      pose proof (ec_bnd _ _ _ _ Hec j Hj Hlkj) as V2. apply Rabs_le_inv in V2.
      assert (Herc : rc v i j - rc v i j1 + mu = cr m C i j - cr m C i j1 - vr v j + (vr v j1 + mu)) by (unfold LapBase.rc; ring).
      destruct (ar_sub _ _ _ _ HA xj h Gxj Gh) as (Ev2 & Gv2 & Bv2); [apply Rabs_le; lra|].
      rewrite Ev2. set (v2 := rnd (xj - h)) in *. apply Rabs_le_inv in Bv2.
      assert (Bv : Rabs (v2 - (mu + rc v i j - rc v i j1)) <= 4 * dl) by (apply Rabs_le; lra).
      assert (Pv : Rabs (vr v j + v2) <= lime (S low)).
      { rewrite lime_S. apply Rabs_le. lra. }
      pose proof (Hnear j Hj Hav) as Hnj.
      assert (Hv2 : mu - eta <= v2) by (apply Rabs_le_inv in Bv; lra).
      assert (Hv2' : v2 <= mu + rc v i j - rc v i j1 + (eps + INR (S low) * eta)) by (apply Rabs_le_inv in Bv; lra).
      rewrite (get_ok _ _ NaN) by lia. cbn [bind].
      pose proof (eb_val _ _ _ _ _ Hb j Hj) as Hdj.
      destruct (nlt extR (Fin v2) (dat d j)) eqn:Elt.
      2:{ apply wp_ret. unfold I. cbn [fst snd]. split; auto. split; [lia|]. split; [auto|]. split; [auto|].
        split; [auto|]. split; [auto|]. split; [auto|]. split; [auto|]. split; [auto|].
        intros p Hp Hpm Hap. destruct (Nat.eq_dec p k) as [->|]; [|apply Hrel; auto; lia].
        fold j. destruct Hdj as [E|[x [E _]]]; rewrite E in *; [rewrite lt_FP in Elt; discriminate|].
        split; [red; eauto|]. unfold vr at 1. rewrite E. rewrite lt_FF in Elt. destruct (Rltb_spec v2 x); [discriminate|lra]. }
      rewrite set_ok by lia. cbn [bind].
      rewrite eq_FF.
      set (d' := upd d j (Fin v2)). set (pred' := upd pred j i).
      assert (Hd'j : dat d' j = Fin v2) by (unfold d'; apply nth_upd_eq; lia).
      assert (Hd'n : forall k, k <> j -> dat d' k = dat d k) by (intros; unfold d'; apply nth_upd_neq; auto).
      assert (Hv'j : vr d' j = v2) by (unfold vr; rewrite Hd'j; auto).
      assert (Hv'n : forall k, k <> j -> vr d' k = vr d k) by (intros; apply vr_eq, Hd'n; auto).
      assert (Hp'j : nth j pred' 0%nat = i) by (unfold pred'; apply nth_upd_eq; lia).
      assert (Hp'n : forall k, k <> j -> nth k pred' 0%nat = nth k pred 0%nat) by (intros; unfold pred'; apply nth_upd_neq; auto).
      assert (Hup_pos : forall p, (p < up)%nat -> cl @ p <> j).
      { intros p Hp E. unfold j in E. apply (perm_inj m) in E; auto; lia. }
      assert (Hdec : isF (dat d j) -> v2 <= vr d j).
      { intros X. rewrite (isF_vr _ _ X), lt_FF in Elt. destruct (Rltb_spec v2 (vr d j)); [lra|discriminate]. }
      assert (Hd'F : forall j, isF (dat d j) -> isF (dat d' j) /\ vr d' j <= vr d j).
      { intros j' Hy. destruct (Nat.eq_dec j' j) as [->|]; [rewrite Hd'j, Hv'j; split; [red; eauto|auto]|rewrite Hd'n, Hv'n by auto; split; auto; lra]. }
      assert (Hlowd : vr d (cl @ low) = mu).
      { rewrite Hcl by lia. transitivity (vr d0 (cl0 @ low)); [|exact Hd1]. apply vr_eq. apply Hdsame. lia. }
      assert (HB' : ebase d' pred' cl (S low) up).
      { pose proof Hb as [B1 B2 B3 B4 B5 B6 B7 B8 B9 B10 B11]. constructor; auto.
        - unfold d'; rewrite upd_length; auto.
        - unfold pred'; rewrite upd_length; auto.
        - intros k' Hk'. destruct (Nat.eq_dec k' j) as [->|]; [rewrite Hd'j; right; eauto|]. rewrite Hd'n; auto.
        - intros k' Hk'. destruct (Nat.eq_dec k' j) as [->|]; [rewrite Hp'j; auto|]. rewrite Hp'n; auto.
        - intros k' Hk' Hak. destruct (B7 k' Hk' Hak) as [X Y]. destruct (Hd'F _ X). split; auto. lra.
        - intros p Hp. apply Hd'F; auto.
        - intros p Hp E. destruct (Nat.eq_dec (cl @ p) j) as [Ejp|Hne].
          + unfold stepe. rewrite Ejp, Hp'j. split; auto. right.
            assert (p = k). { apply (perm_inj m cl); auto; lia. } subst p.
            exists low. split; [lia|]. rewrite Hv'j, (Hv'n (cl @ low)) by (apply Hup_pos; lia). rewrite Hlowd. rewrite Hcl by lia. auto.
          + rewrite Hd'n in E by auto. destruct (B10 p Hp E) as [A B'].
            unfold stepe. rewrite Hp'n, Hv'n by auto. split; auto. destruct B' as [B'|(q & Hq & B')]; auto.
            right. exists q. split; auto. rewrite (Hv'n (cl @ q)) by (apply Hup_pos; lia). auto.
        - intros p q Hp Hq E. rewrite (Hv'n (cl @ p)) by (apply Hup_pos; lia).
          destruct (Nat.eq_dec (cl @ q) j) as [Ejq|Hne].
          + rewrite Ejq, Hv'j. destruct (Nat.eq_dec p low) as [->|]; [lra|].
            assert (X : vr d (cl @ p) = vr d0 (cl0 @ p)).
            { rewrite Hcl by lia. apply vr_eq, Hdsame. lia. }
            pose proof (eb_ord _ _ _ _ _ HE p low ltac:(lia) ltac:(lia) HF1) as Y. fold j1 in Y. rewrite Hd1 in Y. lra.
          + rewrite Hd'n in E by auto. rewrite Hv'n by auto. apply B11; auto. }
      assert (Hdle' : forall j, isF (dat d0 j) -> isF (dat d' j) /\ vr d' j <= vr d0 j).
      { intros j' X. destruct (Hdle _ X) as [Y Z]. destruct (Hd'F _ Y). split; auto. lra. }
      assert (Hdsame' : forall p, (p < up0)%nat -> dat d' (cl0 @ p) = dat d0 (cl0 @ p)).
      { intros p Hp. rewrite Hd'n; auto. rewrite <- Hcl by auto. apply Hup_pos. lia. }
      assert (Hop' : forall p, (last <= p < m)%nat -> isF (dat d' (cl @ p)) -> mu - eta <= vr d' (cl @ p)).
      { intros p Hp E. destruct (Nat.eq_dec (cl @ p) j) as [->|Hne]; [rewrite Hv'j; auto|].
        rewrite Hd'n in E by auto. rewrite Hv'n by auto. auto. }
      assert (Hbt' : forall p, (last <= p < up)%nat -> vr d' (cl @ p) = mu).
      { intros p Hp. rewrite Hv'n; auto. apply Hup_pos. lia. }
      assert (Hrel' : forall p, (p < S k)%nat -> (p < m)%nat -> av v i (cl @ p) = true ->
        isF (dat d' (cl @ p)) /\ vr d' (cl @ p) <= mu + rc v i (cl @ p) - rc v i j1 + (eps + INR (S low) * eta)).
      { intros p Hp Hpm Hap. destruct (Nat.eq_dec p k) as [->|].
        - fold j. rewrite Hd'j, Hv'j. split; [red; eauto|auto].
        - destruct (Hrel p ltac:(lia) Hpm Hap) as [X Y]. destruct (Hd'F _ X). split; auto. lra. }
      destruct (Reqb_spec v2 mu) as [Emu|Hnmu].
      + rewrite (get_ok _ _ None) by lia. cbn [bind].
        destruct (col j) as [ij|] eqn:Ecj.
        * rewrite (get_ok _ _ 0%nat) by lia. cbn [bind].
          rewrite set_ok by lia. cbn [bind].
          rewrite set_ok by (rewrite upd_length; lia). cbn [bind].
          rewrite set_ok by lia. cbn [bind]. apply wp_ret. unfold I. cbn [fst snd].
          fold d'. fold pred'. change (upd (upd cl k (cl @ up)) up j) with (swp cl k up).
          assert (Hs : forall p, swp cl k up @ p = if (p =? up)%nat then j else if (p =? k)%nat then cl @ up else cl @ p).
          { intros p. apply (swp_nth m); auto; lia. }
          assert (Hs1 : forall p, (p < up)%nat -> swp cl k up @ p = cl @ p).
          { intros p Hp. rewrite Hs. destruct (Nat.eqb_spec p up), (Nat.eqb_spec p k); auto; lia. }
          assert (HPs : perm_list m (swp cl k up)) by (apply swp_perm; auto; lia).
          assert (Hs2 : forall p, (up <= p < m)%nat -> exists q, (up <= q < m)%nat /\ swp cl k up @ p = cl @ q /\ (p <= k -> q <= k)%nat).
          { intros p Hp. rewrite Hs. destruct (Nat.eqb_spec p up).
            - exists k. split; [lia|]. split; auto.
            - destruct (Nat.eqb_spec p k); [exists up|exists p]; repeat split; auto; lia. }
          split; auto. split; [lia|]. split; [|split; [|split; [|split; [|split; [|split; [|split]]]]]].
          -- destruct HB' as [B1 B2 B3 B4 B5 B6 B7 B8 B9 B10 B11]. constructor; auto; try lia.
             ++ intros p Hp. rewrite Hs1 by lia. auto.
             ++ intros p Hp. destruct (Nat.eq_dec p up) as [->|].
                ** rewrite Hs, Nat.eqb_refl, Hd'j. red; eauto.
                ** rewrite Hs1 by lia. apply B9. lia.
             ++ intros p Hp E.
                assert (exists q, swp cl k up @ p = cl @ q /\ (q < m)%nat /\ Nat.min q (S low) = Nat.min p (S low)) as (q & Eq & Hq & Hq1).
                { destruct (Nat.lt_ge_cases p up).
                  - exists p. rewrite Hs1 by auto. repeat split; auto; lia.
                  - destruct (Hs2 p) as (q & Hq & Eq & _); [lia|]. exists q. repeat split; auto; lia. }
                rewrite Eq in E |- *. rewrite <- Hq1. destruct (B10 q Hq E) as [A B']. split; auto.
                destruct B' as [B'|(q' & Hq' & B')]; auto. right. exists q'.
                rewrite Hs1 by lia. auto.
             ++ intros p q Hp Hq E. rewrite (Hs1 p) by lia. destruct (Nat.lt_ge_cases q up).
                ** rewrite Hs1 in E |- * by auto. apply B11; auto.
                ** destruct (Hs2 q) as (q' & Hq' & Eq' & _); [lia|]. rewrite Eq' in E |- *. apply B11; auto; lia.
          -- intros p Hp. rewrite Hs1 by lia. auto.
          -- auto.
          -- auto.
          -- intros p Hp. destruct (Nat.eq_dec p up) as [->|].
             ++ rewrite Hs, Nat.eqb_refl. eauto.
             ++ rewrite Hs1 by lia. apply Hag. lia.
          -- intros p Hp. destruct (Nat.eq_dec p up) as [->|].
             ++ rewrite Hs, Nat.eqb_refl, Hv'j. auto.
             ++ rewrite Hs1 by lia. apply Hbt'. lia.
          -- intros p Hp E. destruct (Nat.lt_ge_cases p up).
             ++ rewrite Hs1 in E |- * by auto. apply Hop'; auto.
             ++ destruct (Hs2 p) as (q' & Hq' & Eq' & _); [lia|]. rewrite Eq' in E |- *. apply Hop'; auto; lia.
          -- intros p Hp Hpm Hap.
             assert (exists q, swp cl k up @ p = cl @ q /\ (q < S k)%nat) as (q & Eq & Hq).
             { destruct (Nat.lt_ge_cases p up).
               - exists p. rewrite Hs1 by auto. split; auto; lia.
               - destruct (Hs2 p) as (q & Hq & Eq & X); [lia|]. exists q. split; auto; lia. }
             rewrite Eq in *. apply Hrel'; auto. lia.
        * apply wp_ret. unfold J. cbn [fst snd]. exists j. split; auto.
          fold pred'. exists mu, (S low). apply (make_founde d d' pred' cl (S low) up (S low) up last mu j k); auto; try lia.
          -- rewrite Hd'j. red; eauto.
          -- rewrite Hv'j. auto.
          -- intros p Hp. rewrite Hd'n; auto. apply Hup_pos. lia.
          -- intros p Hp. apply Hbt'. lia.
          -- intros p i' k' Hp Ei' Hk' Hak.
             destruct (Nat.eq_dec p low) as [->|].
             ++ assert (i' = i) by (rewrite Hcl in Ei' by lia; fold j1 in Ei'; congruence). subst i'.
                destruct (perm_surj _ _ _ HP Hk') as (pk & Hpk & <-).
                rewrite (Hcl low) by lia. fold j1.
                assert (Ed1 : vr d' j1 = mu).
                { unfold j1. rewrite <- (Hcl low) by lia. rewrite Hv'n by (apply Hup_pos; lia). auto. }
                rewrite Ed1.
                destruct (Nat.lt_ge_cases pk (S k)); [left; apply Hrel'; auto|right; split; auto; exists pk; split; auto; lia].
             ++ left. rewrite Hcl in Ei' |- * by lia. destruct (HR p ltac:(lia) i' Ei' k' Hk' Hak) as [X Y].
                destruct (Hdle' _ X) as [X' Y'].
                assert (Z : vr d' (cl0 @ p) = vr d0 (cl0 @ p)) by (apply vr_eq, Hdsame'; lia).
                split; auto. lra.
      + rewrite set_ok by lia. cbn [bind]. apply wp_ret. unfold I. cbn [fst snd]. fold d' pred'.
        split; auto. split; [lia|]. split; [auto|]. split; [auto|].
        split; [auto|]. split; [auto|]. split; [auto|]. split; auto. }
  intros [[[[d pred] cl] up] e] [HJ|HI].
  - destruct HJ as (e' & -> & Hfnd). apply wp_ret. unfold step_poste. cbn [p_end]. exact Hfnd.
  - destruct HI as (-> & Hup & Hb & Hcl & Hdle & Hdsame & Hag & Hbt & Hop & Hrel).
    apply wp_ret. unfold step_poste. cbn [p_end p_low]. split; auto.
    replace (up0 + (m - up0))%nat with m in * by lia.
    constructor; cbn [p_d p_pred p_collist p_low p_up p_last p_min p_end]; auto.
    + intros p Hp. unfold rele. rewrite Hcl by lia.
      assert (Z : vr d (cl0 @ p) = vr d0 (cl0 @ p)) by (apply vr_eq, Hdsame; lia).
      destruct (Nat.eq_dec p low) as [->|].
      * intros i' Ei' k Hk Hak. fold j1 in Ei', Z |- *.
        assert (i' = i) by congruence. subst i'. rewrite Z, Hd1.
        destruct (perm_surj m cl k (eb_perm _ _ _ _ _ Hb) Hk) as (q & Hq & <-). apply Hrel; auto.
      * intros i' Ei' k Hk Hak. destruct (HR p ltac:(lia) i' Ei' k Hk Hak) as [X Y].
        destruct (Hdle _ X) as [X' Y']. split; auto. lra.
    + right. exists mu. split; auto.
    + intros p Hp. apply Hag. lia.
Qed.

Lemma dij_step_e F st : dinve st -> wp F (dij_step roundN m C v colsol st) (step_poste st).
Proof.
  intros HI. destruct HI as [HE HR HN HL HM HS]. unfold dij_step.
  pose proof eta_ge as (T1 & T2 & T3 & _).
  pose proof (eb_up _ _ _ _ _ HE) as Hup.
  destruct (Nat.eqb_spec (p_up st) (p_low st)) as [Eq|Hne].
  - apply wp_bind. apply wp_bind.
    eapply wp_conseq; [apply (find_min_e F _ _ _ _ _ HE Eq)|].
    + eapply exists_todo_e; eauto.
    + intros [[cl' up'] mn] (mu & -> & HE' & Hlu & Hpre & Hbat & Hopen).
      pose proof (eb_up _ _ _ _ _ HE') as Hup'.
      assert (HR' : forall p, (p < p_low st)%nat -> rele (p_low st) (p_d st) cl' p).
      { intros q Hq i. rewrite Hpre by auto. apply HR; auto. }
      assert (Hopen' : forall p, (p_low st <= p < m)%nat -> isF (dat (p_d st) (cl' @ p)) -> mu - eta <= vr (p_d st) (cl' @ p)).
      { intros p Hp E. specialize (Hopen p Hp E). lra. }
      apply wp_bind. eapply wp_conseq; [apply (find_unassigned_w n m C rowsol colsol v f Hcore Hf F cl' (p_low st) up')|].
      { apply HE'. }
      { apply HE'. }
      intros [e|] He.
      * simpl. unfold step_poste. cbn [p_end].
        destruct He as (p & Hp & Ep & Ec). exists mu, (p_low st).
        apply (make_founde (p_d st) (p_d st) (p_pred st) cl' (p_low st) up' (p_low st) up' (p_low st) mu e p); auto; try lia.
        -- rewrite <- Ep. apply (eb_fin _ _ _ _ _ HE'); lia.
        -- rewrite <- Ep. apply Hbat; lia.
        -- apply HE.
        -- intros q i k Hq Ei Hk Ha. left. apply (HR' q Hq i Ei k Hk Ha).
      * apply wp_ret. simpl.
        eapply wp_conseq.
        { apply scan_e; cbn [p_d p_pred p_collist p_low p_up p_last p_min p_end]; auto.
          exists mu. auto. }
        intros st' H. exact H.
  - cbn [bind]. rewrite HN. apply scan_e; auto.
    + destruct HM as [H0|HM]; auto. lia.
    + lia.
Qed.

Lemma dij_loop_e F fuel st :
  dinve st -> (m < fuel + p_low st)%nat ->
  wp F (dij_loop roundN fuel m C v colsol st) (fun r => exists mu low g, founde (fst r) (snd r) mu low g).
Proof.
  revert st; induction fuel as [|fuel IH]; intros st HI Hfu.
  - exfalso. pose proof (eb_up _ _ _ _ _ (de_base _ HI)). lia.
  - simpl. apply wp_bind. eapply wp_conseq; [apply dij_step_e; auto|].
    intros st' Hp. unfold step_poste in Hp. destruct (p_end st') as [e|] eqn:E.
    + apply wp_ret. exact Hp.
    + destruct Hp as [HI' El]. apply IH; auto. lia.
Qed.

Lemma init_inve :
  dinve (mkDij (map (fun j => nsub roundN (c m C f j) (nth j v NaN)) (seq 0 m)) (repeat f m) (seq 0 m) 0 0 0 (n0 roundN) None).
Proof.
  set (h := fun j => nsub roundN (c m C f j) (nth j v NaN)).
  assert (Hn : forall k, (k < m)%nat -> dat (map h (seq 0 m)) k = h k).
  { intros k Hk. rewrite nth_indep with (d' := h 0%nat) by (rewrite map_length, seq_length; auto).
    rewrite map_nth, seq_nth; auto. }
  assert (Hr : forall k, (k < m)%nat -> nth k (repeat f m) 0%nat = f).
  { intros k Hk. rewrite nth_indep with (d' := f) by (rewrite repeat_length; auto). apply nth_repeat. }
  assert (Hv : forall k, (k < m)%nat -> av v f k = true ->
     isF (dat (map h (seq 0 m)) k) /\ grid (vr (map h (seq 0 m)) k) /\ Rabs (vr (map h (seq 0 m)) k - rc v f k) <= dl).
  { intros k Hk Ha. destruct (red_e f k Hf Hk) as [(_ & x & E & G & X)|[Y _]]; [|congruence].
    unfold vr. rewrite Hn by auto. unfold h. rewrite E. split; auto. red. eauto. }
  constructor; cbn [p_d p_pred p_collist p_low p_up p_last p_min p_end]; auto; try (intros; lia).
  constructor.
  - rewrite map_length, seq_length; auto.
  - apply repeat_length.
  - split; [apply seq_length|]. split; [apply seq_NoDup|]. intros x Hx; apply in_seq in Hx; lia.
  - lia.
  - intros k Hk. destruct (av v f k) eqn:Ha.
    + destruct (Hv k Hk Ha) as (X & G & Y). right. exists (vr (map h (seq 0 m)) k). split; [apply isF_vr; auto|]. split; auto.
      destruct (av_split _ _ _ _ _ Ha) as [Hfk _]. pose proof (Hcost _ _ Hf Hk Hfk) as Z.
      apply Rabs_le_inv in Y. apply Rabs_le_inv in Z. unfold LapBase.rc in Y. unfold lime. simpl. apply Rabs_le. lra.
    + left. rewrite Hn by auto. unfold h. destruct (red_e f k Hf Hk) as [(Y & _)|[_ E]]; [congruence|auto].
  - intros k Hk. rewrite Hr; auto.
  - intros k Hk Hak. destruct (Hv k Hk Hak) as (X & _ & Y). apply Rabs_le_inv in Y. split; auto. lra.
  - intros; lia.
  - intros; lia.
  - intros p Hp E. rewrite seq_nth in E |- * by auto. simpl plus in *.
    unfold stepe. rewrite Hr by auto. destruct (av v f p) eqn:Ha.
    + split; auto. left. split; auto. apply Hv; auto.
    + exfalso. rewrite Hn in E by auto. unfold h in E. destruct (red_e f p Hf Hp) as [(Y & _)|[_ Y]]; [congruence|].
      rewrite Y in E. destruct E; discriminate.
  - intros; lia.
Qed.

Definition new_ve (g : nat -> R) (v' : list (ext R)) : Prop :=
  length v' = m /\
  forall k, (k < m)%nat -> if lk v k then nth k v' NaN = NInf else
    nth k v' NaN = Fin (vr v' k) /\ grid (vr v' k) /\ Rabs (vr v' k - (vr v k + g k)) <= 2 * dl /\
    Rabs (vr v' k) <= 12 * INR m * B /\ (col k = None -> vr v' k = vr v k).

Lemma prices_e F st e mu low g : founde st e mu low g -> wp F (update_prices roundN v st) (new_ve g).
Proof.
  intros [F1 [F2 F2'] F3 F4 F5 F6 F7 F8 _ _ _ _]. unfold update_prices.
  pose proof (cw_perm _ _ _ _ _ _ _ _ _ _ F3) as HP. pose proof HP as (Hl & _).
  pose proof (cw_low _ _ _ _ _ _ _ _ _ _ F3) as Hlow.
  pose proof (cw_e _ _ _ _ _ _ _ _ _ _ F3) as Hem.
  assert (Hm0 : (0 < m)%nat) by lia. pose proof (HmB Hm0) as HmB0. pose proof (lime_m m (le_n _) Hm0) as Hlim.
  set (good := fun (k : nat) (y : ext R) => y = Fin (match y with Fin r => r | _ => 0 end) /\
     let x := match y with Fin r => r | _ => 0 end in grid x /\ Rabs (x - (vr v k + g k)) <= 2 * dl /\ Rabs x <= 12 * INR m * B).
  assert (Hlkp : forall p, (p < p_last st)%nat -> lk v (p_collist st @ p) = false).
  { intros p Hp. eapply (step_lk m C colsol v f 0 ltac:(lia)). apply (cw_path _ _ _ _ _ _ _ _ _ _ F3). lia. }
  eapply wp_conseq.
  { apply (wp_for F (p_last st) 0 _ (fun t v' =>
      length v' = m /\
      (forall p, (p < t)%nat -> good (p_collist st @ p) (nth (p_collist st @ p) v' NaN)) /\
      (forall p, (t <= p < m)%nat -> nth (p_collist st @ p) v' NaN = nth (p_collist st @ p) v NaN))).
    - split; [auto|]. split; auto. intros; lia.
    - intros t v' Ht (Hlv' & Hv1 & Hv2).
      assert (Hcm : (p_collist st @ t < m)%nat) by (apply perm_lt; auto; lia).
      rewrite (get_ok _ _ 0%nat) by lia. cbn [bind].
      rewrite (get_ok _ _ NaN) by lia. cbn [bind].
      rewrite (get_ok _ _ NaN) by lia. cbn [bind].
      rewrite Hv2 by lia. destruct (F7 t) as (x & Ex & Gx & Bx & Eg); [lia|]. rewrite Ex, F1.
      set (k := p_collist st @ t) in *.
      destruct (w_cases n m C _ _ _ _ Hcore Hcm) as [(Ev & El)|(_ & El)]; [|unfold k in El; rewrite Hlkp in El by lia; discriminate].
      fold k in Ev, El. rewrite Ev.
      pose proof (ec_grid _ _ _ _ Hec k Hcm El) as Gv.
      destruct (ar_add _ _ _ _ HA _ _ Gv Gx) as (E1 & G1 & D1); [lra|]. rewrite E1.
      apply Rabs_le_inv in D1. apply Rabs_le_inv in Bx. pose proof F2' as Bmu. apply Rabs_le_inv in Bmu.
      destruct (ar_sub _ _ _ _ HA _ _ G1 F2) as (E2 & G2 & D2); [apply Rabs_le; lra|]. rewrite E2.
      apply Rabs_le_inv in D2.
      apply wp_set; [lia|]. split; [rewrite upd_length; auto|]. split.
      + intros p Hp. rewrite nth_upd by lia.
        destruct (Nat.eqb_spec k (p_collist st @ p)) as [E|Hne].
        * rewrite <- E. split; auto. cbv zeta. split; auto. split; apply Rabs_le; [rewrite Eg|]; lra.
        * destruct (Nat.eq_dec p t) as [->|]; [unfold k in Hne; congruence|]. apply Hv1. lia.
      + intros p Hp. rewrite nth_upd_neq; [apply Hv2; lia|].
        intros E. unfold k in E. apply (perm_inj m) in E; auto; lia. }
  simpl. intros v' (Hlv' & Hv1 & Hv2). split; auto. intros k Hk.
  destruct (perm_surj _ _ _ HP Hk) as (p & Hp & <-).
  destruct (Nat.lt_ge_cases p (p_last st)) as [Hlt|Hge].
  - rewrite Hlkp by auto. destruct (Hv1 p Hlt) as (X1 & X2 & X3 & X4). split; [exact X1|]. split; [exact X2|]. split; [exact X3|]. split; [exact X4|].
    intros E. destruct (cw_asg _ _ _ _ _ _ _ _ _ _ F3 p ltac:(lia)) as [i Ei]. congruence.
  - assert (E : vr v' (p_collist st @ p) = vr v (p_collist st @ p)) by (apply vr_eq, Hv2; lia).
    rewrite E, F8 by lia. rewrite Hv2 by lia.
    destruct (w_cases n m C _ _ _ _ Hcore Hk) as [(-> & El)|(-> & El)]; rewrite El; auto.
    split; auto. split; [apply (ec_grid _ _ _ _ Hec); auto|]. split; [|split; auto].
    + replace (vr v (p_collist st @ p) - (vr v (p_collist st @ p) + 0)) with 0 by ring. rewrite Rabs_R0. lra.
    + apply (ec_bnd _ _ _ _ Hec); auto.
Qed.

Definition eps' : R := eps + INR n * eta + 8 * dl.

Lemma augment_e F :
  wp F (augment roundN n m C f (rowsol, colsol, v))
    (fun r => let '(rs, cs, v') := r in
       ecore eps' rs cs v' /\ (forall i, assigned cs i <-> (i = f \/ assigned colsol i))).
Proof.
  pose proof eta_ge as (T1 & T2 & T3 & _).
  assert (Hn1 : 1 <= INR n) by (change 1 with (INR 1); apply le_INR; lia).
  assert (Hne : eta <= INR n * eta) by (rewrite <- (Rmult_1_l eta) at 1; apply Rmult_le_compat_r; lra).
  unfold augment. apply wp_bind. eapply wp_conseq; [apply (init_w n m C HC rowsol colsol v f Hcore Hf)|]. intros d ->.
  apply wp_bind. eapply wp_conseq; [apply (dij_loop_e F (S m)); [apply init_inve|cbn [p_low]; lia]|].
  intros [st e] (mu & low & g & Hfnd). cbn [fst snd] in Hfnd.
  apply wp_bind. eapply wp_conseq; [eapply prices_e; eauto|]. intros v' Hv'.
  assert (Hnw : new_vw m v 330 v').
  { destruct Hv' as [X Y]. split; auto. intros k Hk. specialize (Y k Hk). destruct (lk v k); auto.
    destruct Y as (Y1 & _ & _ & Y2 & _). exists (vr v' k). split; auto.
    unfold bnd. rewrite Rmult_1_l. eapply Rle_trans; [exact Y2|].
    pose proof (ar_B _ _ _ _ HA) as [_ HBd]. pose proof (INR_m m Hm) as HmR.
    assert (INR m * B <= 100000 * Bd).
    { apply Rmult_le_compat; auto; [apply pos_INR|lra]. }
    change (330 + 20)%Z with (50 + 300)%Z. rewrite bpow_plus. fold Bd. pose proof Bd_pos.
    change (bpow radix2 50) with 1125899906842624. lra. }
  pose proof (fe_cert _ _ _ _ _ Hfnd) as Hc.
  apply wp_bind. eapply wp_conseq.
  { apply (flip_w n m C rowsol colsol v f 330 Hcore Hf Hfree ltac:(lia) (p_pred st) (p_collist st) low e v' Hc Hnw F (S m) rowsol colsol e low);
      [eapply flip_startw; eauto|].
    pose proof (cw_low _ _ _ _ _ _ _ _ _ _ Hc). lia. }
  intros [rs cs] (H1 & H2 & H3 & H4). cbn [fst snd] in H1, H2, H3, H4. apply wp_ret. split; auto.
  destruct Hfnd as [F1 F2 F3 F4 F5 F6 F7 F8 Frel Fsrc Fall Fpath].
  pose proof (cw_perm _ _ _ _ _ _ _ _ _ _ Hc) as HP.
  destruct Hv' as [Hv1 Hv2].
  assert (Hlk' : forall k, (k < m)%nat -> lk v' k = lk v k) by (intros k Hk; apply (nw_lk m v 330 v' Hnw); auto).
  assert (Hav' : forall i k, (k < m)%nat -> av v' i k = true -> av v i k = true).
  { intros i k Hk. unfold LapBase.av. rewrite Hlk' by auto. auto. }
  assert (Herr : forall k, (k < m)%nat -> lk v k = false -> Rabs (vr v' k - (vr v k + g k)) <= 2 * dl).
  { intros k Hk Hl. specialize (Hv2 k Hk). rewrite Hl in Hv2. tauto. }
  constructor; auto.
  - intros j Hj Hl. rewrite Hlk' in Hl by auto. pose proof (Herr j Hj Hl) as X. apply Rabs_le_inv in X.
    pose proof (ec_pos _ _ _ _ Hec j Hj Hl). specialize (Fall j Hj). unfold eps'. lra.
  - intros j Hj E. pose proof (H3 j Hj E) as Ec. pose proof (wc_un _ _ _ _ _ _ Hcore j Hj Ec) as Hl.
    specialize (Hv2 j Hj). rewrite Hl in Hv2. destruct Hv2 as (_ & _ & _ & _ & X). rewrite X by auto.
    apply (ec_un _ _ _ _ Hec); auto.
  - intros j i k Hj Ej Hl Hk Ha. rewrite Hlk' in Hl by auto. apply Hav' in Ha; auto.
    pose proof (Herr j Hj Hl) as Xj. pose proof (Herr k Hk (proj2 (av_split _ _ _ _ _ Ha))) as Xk.
    apply Rabs_le_inv in Xj. apply Rabs_le_inv in Xk.
    assert (Hmain : rc v i j - g j <= rc v i k - g k + (eps + INR n * eta + 4 * dl)).
    { destruct (H4 j i Hj Ej) as [Eo|[Hon ->]].
      - destruct (perm_surj _ _ _ HP Hj) as (p & Hp & Ep).
        destruct (Nat.lt_ge_cases p low).
        + pose proof (Frel p i k H) as X. rewrite Ep in X. specialize (X Eo Hk Ha). lra.
        + assert (Gj : g j = 0) by (rewrite <- Ep; apply F8; lia). rewrite Gj.
          pose proof (ec_near _ _ _ _ Hec j i k Hj Eo Hl Hk Ha). specialize (Fall k Hk). lra.
      - destruct (Fpath j Hon) as [[E X]|(q & Hq & Eq & X)]; cbv zeta in *.
        + rewrite E in Ha |- *. specialize (Fsrc k Hk Ha). lra.
        + pose proof (Frel q _ k Hq Eq Hk Ha). lra. }
    unfold LapBase.rc in *. unfold eps'. lra.
  - intros j Hj Hl. rewrite Hlk' in Hl by auto. specialize (Hv2 j Hj). rewrite Hl in Hv2. tauto.
  - intros j Hj Hl. rewrite Hlk' in Hl by auto. specialize (Hv2 j Hj). rewrite Hl in Hv2. tauto.
Qed.
End Search.
End Err.
