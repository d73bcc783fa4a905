(** The shortest path phase with rounded arithmetic: the search always ends at
    an unassigned column and no value leaves the range of doubles. *)
From Coq Require Import List Arith Bool Lia ZArith Reals Lra.
From Flocq Require Import Core.
Import ListNotations.
From Verif Require Import Res Scalar Lap LapBase LapArr LapDij FloatBase FloatExt LapRnd.
Local Open Scope nat_scope.
Local Open Scope R_scope.

(** [x] is at most [q] times [2^a] in size. *)
Definition bnd (a q : Z) (x : R) : Prop := Rabs x <= IZR q * bpow radix2 a.

Lemma bnd_le a q q' x : (q <= q')%Z -> bnd a q x -> bnd a q' x.
Proof.
  unfold bnd. intros H Hx. eapply Rle_trans; [exact Hx|]. apply Rmult_le_compat_r; [apply bpow_ge_0|]. apply IZR_le; auto.
Qed.

Lemma bnd_rnd a q x : (0 <= q <= 1048576)%Z -> (0 <= a <= 1000)%Z -> bnd a q x -> bnd a q (rnd x).
Proof. intros Hq Ha H. apply rnd_mul; auto; lia. Qed.

Lemma bnd_pow a q x : (0 <= q <= 1048576)%Z -> bnd a q x -> Rabs x <= bpow radix2 (a + 20).
Proof.
  unfold bnd. intros Hq H. eapply Rle_trans; [exact H|]. rewrite Z.add_comm, bpow_plus.
  apply Rmult_le_compat_r; [apply bpow_ge_0|]. change (bpow radix2 20) with (IZR 1048576). apply IZR_le; lia.
Qed.

Lemma bnd_sub a p q x y : bnd a p x -> bnd a q y -> bnd a (p + q) (x - y).
Proof.
  unfold bnd. intros Hx Hy. rewrite plus_IZR, Rmult_plus_distr_r.
  eapply Rle_trans; [apply Rabs_triang|]. rewrite Rabs_Ropp. lra.
Qed.
Lemma bnd_add a p q x y : bnd a p x -> bnd a q y -> bnd a (p + q) (x + y).
Proof.
  unfold bnd. intros Hx Hy. rewrite plus_IZR, Rmult_plus_distr_r.
  eapply Rle_trans; [apply Rabs_triang|]. lra.
Qed.

Lemma sub_bnd a p q x y : (0 <= p)%Z -> (0 <= q)%Z -> (p + q <= 1048576)%Z -> (0 <= a <= 1000)%Z ->
  bnd a p x -> bnd a q y -> exists z, nsub roundN (Fin x) (Fin y) = Fin z /\ bnd a (p + q) z.
Proof.
  intros Hp Hq Hpq Ha Hx Hy. exists (rnd (x - y)). pose proof (bnd_sub _ _ _ _ _ Hx Hy) as H. split.
  - apply (rsub_FF _ _ (a + 20)); [lia|]. apply bnd_pow with (p + q)%Z; auto; lia.
  - apply bnd_rnd; auto; lia.
Qed.
Lemma add_bnd a p q x y : (0 <= p)%Z -> (0 <= q)%Z -> (p + q <= 1048576)%Z -> (0 <= a <= 1000)%Z ->
  bnd a p x -> bnd a q y -> exists z, nadd roundN (Fin x) (Fin y) = Fin z /\ bnd a (p + q) z.
Proof.
  intros Hp Hq Hpq Ha Hx Hy. exists (rnd (x + y)). pose proof (bnd_add _ _ _ _ _ Hx Hy) as H. split.
  - apply (radd_FF _ _ (a + 20)); [lia|]. apply bnd_pow with (p + q)%Z; auto; lia.
  - apply bnd_rnd; auto; lia.
Qed.

Section Dij.
Variables (n m : nat) (C : list (ext R)).
Hypothesis HC : wfC n m C.
Hypothesis Hhall : hall n m C.
Hypothesis Hm : (Z.of_nat m < 100000)%Z.

Notation wcore := (wcore n m C).
Notation assigned := (assigned m).
Notation av := (av m C).

Variables (rowsol colsol : list (option nat)) (v : list (ext R)) (f : nat) (a : Z).
Hypothesis Hcore : wcore rowsol colsol v.
Hypothesis Hf : (f < n)%nat.
Hypothesis Hfree : ~ assigned colsol f.
Hypothesis Ha : (0 <= a <= 1000)%Z.
Hypothesis Hcb : forall i j, (i < n)%nat -> (j < m)%nat -> finb m C i j = true -> bnd a 1 (cr m C i j).
Hypothesis Hvb : forall j, (j < m)%nat -> lk v j = false -> bnd a 1 (vr v j).

Let Hlv : length v = m := wc_lv _ _ _ _ _ _ Hcore.
Let Hlc : length colsol = m := wc_lc _ _ _ _ _ _ Hcore.
Let Hlr : length rowsol = n := wc_lr _ _ _ _ _ _ Hcore.

Notation "cl @ p" := (nth p cl 0%nat) (at level 20).
Notation dat d j := (nth j d NaN).
Notation col j := (nth j colsol None).

(** Distances: infinite or finite and not too large. *)
Definition dval (q : Z) (x : ext R) : Prop := x = PInf \/ exists r, x = Fin r /\ bnd a q r.
Definition isF (x : ext R) : Prop := exists r, x = Fin r.

Lemma dval_le q q' x : (q <= q')%Z -> dval q x -> dval q' x.
Proof. intros H [->|(r & -> & B)]; [left; auto|right; exists r; split; auto; eapply bnd_le; eauto]. Qed.
Lemma dval_up q x : dval q x -> isup x.
Proof. intros [->|(r & -> & _)]; [left|right]; eauto. Qed.

(** The rounded reduced cost. *)
Lemma red_val i j : (i < n)%nat -> (j < m)%nat ->
  (av v i j = true /\ exists x, nsub roundN (c m C i j) (nth j v NaN) = Fin x /\ bnd a 2 x) \/
  (av v i j = false /\ nsub roundN (c m C i j) (nth j v NaN) = PInf).
Proof.
  intros Hi Hj. unfold LapBase.av.
  destruct (c_cases n m C HC i j Hi Hj) as [[Ec Ef]|[Ec Ef]];
  destruct (w_cases n m C _ _ _ j Hcore Hj) as [(Ev & El)|(Ev & El)]; rewrite Ec, Ev, Ef, El; simpl andb; try (right; split; reflexivity).
  left. split; auto. change 2%Z with (1 + 1)%Z. apply sub_bnd; try lia; auto.
Qed.

Definition stepw (pred cl : list nat) (bound k : nat) : Prop :=
  let i := nth k pred 0%nat in
  av v i k = true /\ (i = f \/ exists q, (q < bound)%nat /\ col (cl @ q) = Some i).

Definition relw (d : list (ext R)) (cl : list nat) (p : nat) : Prop :=
  forall i, col (cl @ p) = Some i -> forall k, (k < m)%nat -> av v i k = true -> isF (dat d k).

Definition lim (low : nat) : Z := (4 * Z.of_nat low + 2)%Z.

Record wbase (d : list (ext R)) (pred cl : list nat) (low up : nat) : Prop := {
  wb_ld : length d = m;
  wb_lp : length pred = m;
  wb_perm : perm_list m cl;
  wb_up : (low <= up <= m)%nat;
  wb_val : forall k, (k < m)%nat -> dval (lim low) (dat d k);
  wb_pred : forall k, (k < m)%nat -> (nth k pred 0%nat < n)%nat;
  wb_src : forall k, (k < m)%nat -> av v f k = true -> isF (dat d k);
  wb_asg : forall p, (p < low)%nat -> exists i, col (cl @ p) = Some i;
  wb_fin : forall p, (p < up)%nat -> isF (dat d (cl @ p));
  wb_tight : forall p, (p < m)%nat -> isF (dat d (cl @ p)) -> stepw pred cl (Nat.min p low) (cl @ p) }.

Lemma step_lk pred cl b k : stepw pred cl b k -> lk v k = false.
Proof. intros [H _]. apply av_split in H. tauto. Qed.

Lemma exists_todo_w d pred cl low up :
  wbase d pred cl low up -> (forall p, (p < low)%nat -> relw d cl p) ->
  exists p, (low <= p < m)%nat /\ isF (dat d (cl @ p)).
Proof.
  intros HB Hx.
  pose proof (wb_perm _ _ _ _ _ HB) as HP. pose proof HP as (Hl & Hnd & Hlt).
  pose proof (wb_up _ _ _ _ _ HB) as Hup.
  apply Classical_Prop.NNPP. intros Hno0.
  assert (Hno : forall k, (k < m)%nat -> isF (dat d k) -> In k (firstn low cl)).
  { intros k Hk E. destruct (perm_surj _ _ _ HP Hk) as (p & Hp & Ep).
    destruct (Nat.lt_ge_cases p low).
    - rewrite <- Ep. rewrite <- (nth_firstn cl low p) by auto. apply nth_In. rewrite firstn_length. lia.
    - exfalso. apply Hno0. exists p. rewrite Ep. split; auto. }
  destruct (w_escape n m C Hhall rowsol colsol v (firstn low cl) f) as (k & Hk & Hav & Hnin); auto.
  - rewrite <- (firstn_skipn low cl) in Hnd.
    clear -Hnd. induction (firstn low cl); [constructor|]. simpl in Hnd. inversion Hnd; subst.
    constructor; auto. rewrite in_app_iff in H1. tauto.
  - intros j Hj. apply (In_nth _ _ 0%nat) in Hj. destruct Hj as (p & Hp & Ep).
    rewrite firstn_length in Hp. rewrite nth_firstn in Ep by lia. subst j.
    assert (p < low)%nat by lia.
    split; [apply perm_lt; auto; lia|]. split.
    { eapply step_lk. apply (wb_tight _ _ _ _ _ HB); [lia|]. apply (wb_fin _ _ _ _ _ HB). lia. }
    destruct (wb_asg _ _ _ _ _ HB p) as [i Ei]; auto.
    exists i. split; auto. intros k Hk Hav. apply Hno; auto. apply (Hx p) with i; auto.
  - apply Hnin, Hno; auto. apply (wb_src _ _ _ _ _ HB); auto.
Qed.

Lemma find_min_w F d pred cl low up :
  wbase d pred cl low up -> up = low ->
  (exists p, (low <= p < m)%nat /\ isF (dat d (cl @ p))) ->
  wp F (find_min roundN m d cl low up)
    (fun r => let '(cl', up', mn) := r in
       exists mu, mn = Fin mu /\ bnd a (lim low) mu /\ wbase d pred cl' low up' /\ (low < up')%nat /\
         (forall p, (p < low)%nat -> cl' @ p = cl @ p)).
Proof.
  intros HB -> (p0 & Hp0 & x0 & Ex0).
  pose proof (wb_perm _ _ _ _ _ HB) as HP. pose proof HP as (Hl & Hnd & Hlt).
  pose proof (wb_ld _ _ _ _ _ HB) as Hld.
  assert (Hval : forall k, (k < m)%nat -> isup (dat d k)) by (intros; eapply dval_up, (wb_val _ _ _ _ _ HB); auto).
  unfold find_min.
  rewrite (get_ok _ _ 0%nat) by lia. cbn [bind].
  assert (Hc0 : (cl @ low < m)%nat) by (apply perm_lt; auto; lia).
  rewrite (get_ok _ _ NaN) by lia. cbn [bind].
  set (I := fun (k : nat) (s : list nat * nat * ext R) =>
    let '(cl', up', mn) := s in
    perm_list m cl' /\ (low < up' <= k)%nat /\ isup mn /\
    (forall p, (p < low)%nat -> cl' @ p = cl @ p) /\
    (forall p, (low <= p < up')%nat -> dat d (cl' @ p) = mn) /\
    (forall p, (up' <= p < k)%nat -> ele mn (dat d (cl' @ p)))).
  eapply wp_conseq.
  { apply (wp_for F (m - S low) (S low) _ I).
    - split; [apply HP|]. split; [lia|].
      split; [apply Hval; auto|].
      split; [auto|]. split; [|intros; lia].
      intros p Hp. assert (p = low) by lia. subst p; auto.
    - intros k [[cl' up'] mn] Hk (HP' & Hup' & Hmn & Hpre & Hsc & Htd).
      pose proof HP' as (Hl' & _).
      assert (Hck : (cl' @ k < m)%nat) by (apply perm_lt; auto; lia).
      rewrite (get_ok _ _ 0%nat) by lia. cbn [bind].
      rewrite (get_ok _ _ NaN) by lia. cbn [bind].
      change (nle roundN) with (nle extR). change (nlt roundN) with (nlt extR).
      pose proof (Hval _ Hck) as Hh.
      destruct (nle extR (dat d (cl' @ k)) mn) eqn:E1.
      + destruct (nlt extR (dat d (cl' @ k)) mn) eqn:E2.
        * rewrite (get_ok _ _ 0%nat) by lia. cbn [bind].
          rewrite set_ok by lia. cbn [bind].
          rewrite set_ok by (rewrite upd_length; lia). cbn [bind].
          apply wp_ret. fold (swp cl' k low).
          split; [apply swp_perm; auto; lia|].
          split; [lia|]. split; [auto|].
          split; [|split].
          -- intros p Hp. rewrite (swp_nth m) by (auto; lia).
             destruct (Nat.eqb_spec p low), (Nat.eqb_spec p k); try lia. auto.
          -- intros p Hp. assert (p = low) by lia. subst p. rewrite (swp_nth m) by (auto; lia).
             rewrite Nat.eqb_refl. auto.
          -- intros p Hp. rewrite (swp_nth m) by (auto; lia).
             apply nlt_true in E2; auto.
             destruct (Nat.eqb_spec p low); [lia|]. destruct (Nat.eqb_spec p k).
             ++ rewrite (Hsc low) by lia. auto.
             ++ destruct (Nat.lt_ge_cases p up').
                ** rewrite (Hsc p) by lia. auto.
                ** assert (ele mn (dat d (cl' @ p))) by (apply Htd; lia).
                   eapply ele_trans with mn; auto. apply Hval, perm_lt; auto; lia.
        * pose proof (nle_nlt_false _ _ Hh Hmn E1 E2) as Eh.
          rewrite (get_ok _ _ 0%nat) by lia. cbn [bind].
          rewrite set_ok by lia. cbn [bind].
          rewrite set_ok by (rewrite upd_length; lia). cbn [bind].
          apply wp_ret. fold (swp cl' k up').
          split; [apply swp_perm; auto; lia|].
          split; [lia|]. split; [auto|].
          split; [|split].
          -- intros p Hp. rewrite (swp_nth m) by (auto; lia).
             destruct (Nat.eqb_spec p up'), (Nat.eqb_spec p k); try lia. auto.
          -- intros p Hp. rewrite (swp_nth m) by (auto; lia).
             destruct (Nat.eqb_spec p up'); auto.
             destruct (Nat.eqb_spec p k); [lia|]. apply Hsc; lia.
          -- intros p Hp. rewrite (swp_nth m) by (auto; lia).
             destruct (Nat.eqb_spec p up'); [lia|]. destruct (Nat.eqb_spec p k).
             ++ apply Htd; lia.
             ++ apply Htd; lia.
      + apply wp_ret. simpl. repeat split; auto; try lia; try apply HP'.
        intros p Hp. destruct (Nat.eq_dec p k) as [->|].
        * apply nle_false; auto.
        * apply Htd; lia. }
  intros [[cl' up'] mn] (HP' & Hup' & Hmn & Hpre & Hsc & Htd).
  replace (S low + (m - S low))%nat with m in * by lia.
  assert (Hsame : forall p, (low <= p < m)%nat -> exists q, (low <= q < m)%nat /\ cl' @ q = cl @ p).
  { intros p Hp. destruct (perm_surj m cl' (cl @ p) HP') as (q & Hq & Eq).
    - apply perm_lt; auto; lia.
    - exists q. split; auto. split; auto. destruct (Nat.lt_ge_cases q low); auto. exfalso.
      rewrite Hpre in Eq by auto. apply (perm_inj m) in Eq; auto; lia. }
  assert (Hsame' : forall q, (low <= q < m)%nat -> exists p, (low <= p < m)%nat /\ cl' @ q = cl @ p).
  { intros p Hp. destruct (perm_surj m cl (cl' @ p) HP) as (q & Hq & Eq).
    - apply perm_lt; auto; lia.
    - exists q. split; auto. split; auto. destruct (Nat.lt_ge_cases q low); auto. exfalso.
      rewrite <- Hpre in Eq by auto. apply (perm_inj m) in Eq; auto; lia. }
  destruct (Hsame p0 Hp0) as (q0 & Hq0 & Eq0).
  assert (exists mu, mn = Fin mu) as [mu ->].
  { destruct (Nat.lt_ge_cases q0 up').
    - rewrite <- (Hsc q0) by lia. rewrite Eq0. eauto.
    - assert (ele mn (dat d (cl' @ q0))) as X by (apply Htd; lia).
      rewrite Eq0, Ex0 in X. destruct Hmn as [->|[r ->]]; eauto. discriminate. }
  exists mu. split; auto. split; [|split; [|split; [lia|auto]]].
  - assert (Hlow' : (cl' @ low < m)%nat) by (apply perm_lt; auto; lia).
    destruct (wb_val _ _ _ _ _ HB _ Hlow') as [E|(r & E & Hb)]; rewrite (Hsc low) in E by lia; [discriminate|].
    inversion E; auto.
  - destruct HB as [H1 H2 H3 H4 H5 H6 H7 H8 H9 H10]. constructor; auto; try lia.
    + intros p Hp. rewrite Hpre by auto. auto.
    + intros p Hp. destruct (Nat.lt_ge_cases p low); [rewrite Hpre by auto; apply H9; auto|].
      rewrite Hsc by lia. red. eauto.
    + assert (Hst : forall b k, (b <= low)%nat -> stepw pred cl b k -> stepw pred cl' b k).
      { intros b k Hb [X Y]. split; auto. destruct Y as [Y|(q & Hq & Y)]; auto. right. exists q. rewrite Hpre by lia. auto. }
      intros p Hp E. destruct (Nat.lt_ge_cases p low).
      * rewrite Hpre in E |- * by auto. apply Hst; [lia|]. auto.
      * destruct (Hsame' p) as (p' & Hp' & Ep'); [lia|].
        rewrite Ep' in E |- *. replace (Nat.min p low) with (Nat.min p' low) by lia. apply Hst; [lia|]. apply H10; auto; lia.
Qed.

Lemma find_unassigned_w F cl low up :
  perm_list m cl -> (low <= up <= m)%nat ->
  wp F (find_unassigned colsol cl low up)
    (fun r => match r with
              | Some e => exists p, (low <= p < up)%nat /\ cl @ p = e /\ col e = None
              | None => forall p, (low <= p < up)%nat -> exists i, col (cl @ p) = Some i
              end).
Proof.
  intros HP Hup. unfold find_unassigned.
  eapply wp_conseq.
  { apply (wp_for_break F (up - low) low _
      (fun k s => s = None /\ forall p, (low <= p < k)%nat -> exists i, col (cl @ p) = Some i)
      (fun s => match s with
                | Some e => exists p, (low <= p < up)%nat /\ cl @ p = e /\ col e = None
                | None => False end)).
    - split; auto. intros; lia.
    - intros k s Hk [-> HI]. pose proof HP as (Hl & _).
      rewrite (get_ok _ _ 0%nat) by lia. cbn [bind].
      assert (cl @ k < m)%nat by (apply perm_lt; auto; lia).
      rewrite (get_ok _ _ None) by lia. cbn [bind].
      apply wp_ret. destruct (col (cl @ k)) as [i|] eqn:E; simpl.
      + split; auto. intros p Hp. destruct (Nat.eq_dec p k) as [->|]; eauto. apply HI; lia.
      + exists k. split; [lia|]. auto. }
  intros s [H|[-> H]].
  - destruct s; auto. destruct H.
  - intros p Hp. apply H. lia.
Qed.

(** What the path flip needs. *)
Record certw (pred cl : list nat) (low e : nat) : Prop := {
  cw_perm : perm_list m cl;
  cw_lp : length pred = m;
  cw_pred : forall k, (k < m)%nat -> (nth k pred 0%nat < n)%nat;
  cw_low : (low <= m)%nat;
  cw_e : (e < m)%nat;
  cw_ecol : col e = None;
  cw_asg : forall p, (p < low)%nat -> exists i, col (cl @ p) = Some i;
  cw_end : stepw pred cl low e;
  cw_path : forall p, (p < low)%nat -> stepw pred cl p (cl @ p) }.

Lemma make_certw d pred cl low up e q :
  wbase d pred cl low up -> (low <= q < m)%nat -> cl @ q = e -> col e = None -> isF (dat d e) ->
  certw pred cl low e.
Proof.
  intros HB Hq Eq Ee Ed. destruct HB as [B1 B2 B3 B4 B5 B6 B7 B8 B9 B10].
  constructor; auto; try lia.
  - subst e. apply perm_lt; auto; lia.
  - subst e. replace low with (Nat.min q low) at 1 by lia. apply B10; auto; lia.
  - intros p Hp. replace p with (Nat.min p low) at 1 by lia. apply B10; try lia. apply B9; lia.
Qed.

Record dinvw (st : dij (T := ext R)) : Prop := {
  dw_base : wbase (p_d st) (p_pred st) (p_collist st) (p_low st) (p_up st);
  dw_rel : forall p, (p < p_low st)%nat -> relw (p_d st) (p_collist st) p;
  dw_end : p_end st = None;
  dw_last : (p_last st <= p_low st)%nat;
  dw_min : p_up st = 0%nat \/ exists mu, p_min st = Fin mu /\ bnd a (lim (p_low st)) mu;
  dw_scan : forall p, (p_low st <= p < p_up st)%nat -> exists i, col (p_collist st @ p) = Some i }.

Definition foundw (st : dij (T := ext R)) (e : nat) : Prop :=
  exists mu low, p_min st = Fin mu /\ bnd a (lim m) mu /\ certw (p_pred st) (p_collist st) low e /\
    (p_last st <= low)%nat /\ length (p_d st) = m /\
    forall p, (p < p_last st)%nat -> exists x, dat (p_d st) (p_collist st @ p) = Fin x /\ bnd a (lim m) x.

Definition step_postw (st st' : dij (T := ext R)) : Prop :=
  match p_end st' with
  | Some e => foundw st' e
  | None => dinvw st' /\ p_low st' = S (p_low st)
  end.

Lemma lim_le p q : (p <= q)%nat -> (lim p <= lim q)%Z.
Proof. unfold lim. lia. Qed.

Lemma scan_w F st :
  wbase (p_d st) (p_pred st) (p_collist st) (p_low st) (p_up st) ->
  (forall p, (p < p_low st)%nat -> relw (p_d st) (p_collist st) p) ->
  p_end st = None -> (p_last st <= p_low st)%nat ->
  (exists mu, p_min st = Fin mu /\ bnd a (lim (p_low st)) mu) ->
  (forall p, (p_low st <= p < p_up st)%nat -> exists i, col (p_collist st @ p) = Some i) ->
  (p_low st < p_up st)%nat ->
  wp F (scan_column roundN m C v colsol st) (step_postw st).
Proof.
  destruct st as [d0 pred0 cl0 low up0 last mn e0]. simpl.
  intros HB HR -> Hlast (mu & -> & Hmu) Hasg Hlu.
  pose proof (wb_perm _ _ _ _ _ HB) as HP0. pose proof HP0 as (Hl0 & _).
  pose proof (wb_ld _ _ _ _ _ HB) as Hld0. pose proof (wb_lp _ _ _ _ _ HB) as Hlp0.
  pose proof (wb_up _ _ _ _ _ HB) as Hup0.
  unfold scan_column. cbn [p_d p_pred p_collist p_low p_up p_last p_min p_end].
  rewrite (get_ok _ _ 0%nat) by lia. cbn [bind].
  set (j1 := cl0 @ low).
  assert (Hj1 : (j1 < m)%nat) by (apply perm_lt; auto; lia).
  rewrite (get_ok _ _ None) by lia. cbn [bind].
  destruct (Hasg low) as [i Ei]; [lia|]. fold j1 in Ei. rewrite Ei. cbn [idx bind].
  destruct (wc_a1 _ _ _ _ _ _ Hcore _ _ Hj1 Ei) as [Hi _].
  rewrite (get_c n m C HC) by auto. cbn [bind].
  rewrite (get_ok _ _ NaN) by lia. cbn [bind].
  assert (Hlk1 : lk v j1 = false).
  { unfold j1. eapply step_lk. apply (wb_tight _ _ _ _ _ HB); [lia|]. apply (wb_fin _ _ _ _ _ HB). lia. }
  assert (Hav1 : av v i j1 = true).
  { unfold LapBase.av. rewrite (wc_fin _ _ _ _ _ _ Hcore _ _ Hj1 Ei), Hlk1. auto. }
  destruct (red_val i j1 Hi Hj1) as [(_ & x1 & E1 & Bx1)|[X _]]; [|congruence].
  cbv zeta. rewrite E1.
  destruct (sub_bnd a 2 (lim low) x1 mu) as (h & Eh & Bh); auto; try (unfold lim; lia).
  rewrite Eh.
  set (I := fun (k : nat) (s : list (ext R) * list nat * list nat * nat * option nat) =>
    let '(d, pred, cl, up, e) := s in
    e = None /\ (up0 <= up <= k)%nat /\
    wbase d pred cl (S low) up /\
    (forall p, (p < up0)%nat -> cl @ p = cl0 @ p) /\
    (forall j, isF (dat d0 j) -> isF (dat d j)) /\
    (forall p, (p < up)%nat -> exists i, col (cl @ p) = Some i) /\
    (forall p, (p < k)%nat -> (p < m)%nat -> av v i (cl @ p) = true -> isF (dat d (cl @ p)))).
  set (J := fun (s : list (ext R) * list nat * list nat * nat * option nat) =>
    let '(d, pred, cl, up, e) := s in
    exists e', e = Some e' /\ foundw (mkDij d pred cl (S low) up last (Fin mu) e) e').
  apply wp_bind. eapply wp_conseq.
  { apply (wp_for_break F (m - up0) up0 _ I J).
    - split; [auto|]. split; [lia|].
      destruct HB as [B1 B2 B3 B4 B5 B6 B7 B8 B9 B10].
      split; [|split; [|split; [|split]]]; auto.
      + constructor; auto; try lia.
        * intros k Hk. eapply dval_le; [|apply B5; auto]. apply lim_le; lia.
        * intros p Hp. destruct (Nat.eq_dec p low) as [->|]; [eauto|]. apply B8. lia.
        * intros p Hp E. destruct (B10 p Hp E) as [A B]. split; auto.
          destruct B as [B|(q & Hq & B)]; auto. right. exists q. split; auto; lia.
      + intros p Hp. destruct (Nat.lt_ge_cases p low); [apply B8; auto|apply Hasg; lia].
    - intros k [[[[d pred] cl] up] e] Hk (-> & Hup & Hb & Hcl & Hdle & Hag & Hrel).
      pose proof (wb_perm _ _ _ _ _ Hb) as HP. pose proof HP as (Hl & _).
      pose proof (wb_ld _ _ _ _ _ Hb) as Hld. pose proof (wb_lp _ _ _ _ _ Hb) as Hlp.
      assert (Hj : (cl @ k < m)%nat) by (apply perm_lt; auto; lia).
      rewrite (get_ok _ _ 0%nat) by lia. cbn [bind].
      rewrite (get_c n m C HC) by auto. cbn [bind].
      rewrite (get_ok _ _ NaN) by lia. cbn [bind].
      set (j := cl @ k) in *.
      change (nlt roundN) with (nlt extR). change (neq roundN) with (neq extR).
      destruct (red_val i j Hi Hj) as [(Hav & xj & Ej & Bxj)|[Hav Ej]]; rewrite Ej.
      2:{ change (nsub roundN PInf (Fin h)) with (@PInf R).
        rewrite (get_ok _ _ NaN) by lia. cbn [bind]. rewrite lt_Px.
        apply wp_ret. simpl. split; auto. split; [lia|]. split; [auto|]. split; [auto|].
        split; [auto|]. split; [auto|].
        intros p Hp Hpm Hap. destruct (Nat.eq_dec p k) as [->|]; [unfold j in Hav; congruence|]. apply Hrel; auto; lia. }
      destruct (sub_bnd a 2 (2 + lim low) xj h) as (v2 & Ev2 & Bv2); auto; try (unfold lim; lia).
      replace (2 + (2 + lim low))%Z with (lim (S low)) in Bv2 by (unfold lim; lia).
      rewrite Ev2. rewrite (get_ok _ _ NaN) by lia. cbn [bind].
      pose proof (wb_val _ _ _ _ _ Hb j Hj) as Hdj.
      destruct (nlt extR (Fin v2) (dat d j)) eqn:Elt.
      2:{ apply wp_ret. simpl. split; auto. split; [lia|]. split; [auto|]. split; [auto|].
        split; [auto|]. split; [auto|].
        intros p Hp Hpm Hap. destruct (Nat.eq_dec p k) as [->|]; [|apply Hrel; auto; lia].
        fold j. destruct Hdj as [E|[x [E _]]]; rewrite E in *; [rewrite lt_FP in Elt; discriminate|]. red. eauto. }
      rewrite set_ok by lia. cbn [bind].
      rewrite eq_FF.
      set (d' := upd d j (Fin v2)). set (pred' := upd pred j i).
      assert (Hd'j : dat d' j = Fin v2) by (unfold d'; apply nth_upd_eq; lia).
      assert (Hd'n : forall k, k <> j -> dat d' k = dat d k) by (intros; unfold d'; apply nth_upd_neq; auto).
      assert (Hp'j : nth j pred' 0%nat = i) by (unfold pred'; apply nth_upd_eq; lia).
      assert (Hp'n : forall k, k <> j -> nth k pred' 0%nat = nth k pred 0%nat) by (intros; unfold pred'; apply nth_upd_neq; auto).
      assert (Hup_pos : forall p, (p < up)%nat -> cl @ p <> j).
      { intros p Hp E. unfold j in E. apply (perm_inj m) in E; auto; lia. }
      assert (Hd'F : forall j, isF (dat d j) -> isF (dat d' j)).
      { intros j' Hy. destruct (Nat.eq_dec j' j) as [->|]; [rewrite Hd'j; red; eauto|rewrite Hd'n by auto; auto]. }
      assert (HB' : wbase d' pred' cl (S low) up).
      { destruct Hb as [B1 B2 B3 B4 B5 B6 B7 B8 B9 B10]. constructor; auto.
        - unfold d'; rewrite upd_length; auto.
        - unfold pred'; rewrite upd_length; auto.
        - intros k' Hk'. destruct (Nat.eq_dec k' j) as [->|]; [rewrite Hd'j; right; eauto|]. rewrite Hd'n; auto.
        - intros k' Hk'. destruct (Nat.eq_dec k' j) as [->|]; [rewrite Hp'j; auto|]. rewrite Hp'n; auto.
        - intros p Hp E. destruct (Nat.eq_dec (cl @ p) j) as [Ejp|Hne].
          + unfold stepw. rewrite Ejp, Hp'j. split; auto. right.
            assert (p = k). { apply (perm_inj m cl); auto; lia. } subst p.
            exists low. split; [lia|]. rewrite Hcl by lia. auto.
          + rewrite Hd'n in E by auto. destruct (B10 p Hp E) as [A B].
            unfold stepw. rewrite Hp'n by auto. split; auto. }
      destruct (Reqb_spec v2 mu) as [Emu|Hnmu].
      + rewrite (get_ok _ _ None) by lia. cbn [bind].
        destruct (col j) as [ij|] eqn:Ecj.
        * rewrite (get_ok _ _ 0%nat) by lia. cbn [bind].
          rewrite set_ok by lia. cbn [bind].
          rewrite set_ok by (rewrite upd_length; lia). cbn [bind].
          rewrite set_ok by lia. cbn [bind]. apply wp_ret. simpl.
          fold d'. fold pred'. change (upd (upd cl k (cl @ up)) up j) with (swp cl k up).
          assert (Hs : forall p, swp cl k up @ p = if (p =? up)%nat then j else if (p =? k)%nat then cl @ up else cl @ p).
          { intros p. apply (swp_nth m); auto; lia. }
          assert (Hs1 : forall p, (p < up)%nat -> swp cl k up @ p = cl @ p).
          { intros p Hp. rewrite Hs. destruct (Nat.eqb_spec p up), (Nat.eqb_spec p k); auto; lia. }
          assert (HPs : perm_list m (swp cl k up)) by (apply swp_perm; auto; lia).
          assert (Hs2 : forall p, (up <= p < m)%nat -> exists q, (up <= q < m)%nat /\ swp cl k up @ p = cl @ q /\ (p <= k -> q <= k)%nat).
          { intros p Hp. rewrite Hs. destruct (Nat.eqb_spec p up).
            - exists k. split; [lia|]. split; auto.
            - destruct (Nat.eqb_spec p k); [exists up|exists p]; repeat split; auto; lia. }
          split; auto. split; [lia|]. split; [|split; [|split; [|split]]].
          -- destruct HB' as [B1 B2 B3 B4 B5 B6 B7 B8 B9 B10]. constructor; auto; try lia.
             ++ intros p Hp. rewrite Hs1 by lia. auto.
             ++ intros p Hp. destruct (Nat.eq_dec p up) as [->|].
                ** rewrite Hs, Nat.eqb_refl, Hd'j. red; eauto.
                ** rewrite Hs1 by lia. apply B9. lia.
             ++ intros p Hp E.
                assert (exists q, swp cl k up @ p = cl @ q /\ (q < m)%nat /\ Nat.min q (S low) = Nat.min p (S low)) as (q & Eq & Hq & Hq1).
                { destruct (Nat.lt_ge_cases p up).
                  - exists p. rewrite Hs1 by auto. repeat split; auto; lia.
                  - destruct (Hs2 p) as (q & Hq & Eq & _); [lia|]. exists q. repeat split; auto; lia. }
                rewrite Eq in E |- *. rewrite <- Hq1. destruct (B10 q Hq E) as [A B]. split; auto.
                destruct B as [B|(q' & Hq' & B)]; auto. right. exists q'.
                rewrite Hs1 by lia. auto.
          -- intros p Hp. rewrite Hs1 by lia. auto.
          -- intros. apply Hd'F. auto.
          -- intros p Hp. destruct (Nat.eq_dec p up) as [->|].
             ++ rewrite Hs, Nat.eqb_refl. eauto.
             ++ rewrite Hs1 by lia. apply Hag. lia.
          -- intros p Hp Hpm Hap.
             assert (exists q, swp cl k up @ p = cl @ q /\ (q < S k)%nat) as (q & Eq & Hq).
             { destruct (Nat.lt_ge_cases p up).
               - exists p. rewrite Hs1 by auto. split; auto; lia.
               - destruct (Hs2 p) as (q & Hq & Eq & X); [lia|]. exists q. split; auto; lia. }
             rewrite Eq in *. destruct (Nat.eq_dec q k) as [->|].
             ++ fold j. rewrite Hd'j. red; eauto.
             ++ apply Hd'F. apply Hrel; auto; lia.
        * apply wp_ret. simpl. exists j. split; auto.
          fold pred'.
          exists mu, (S low). simpl. split; auto. split; [eapply bnd_le; [|exact Hmu]; apply lim_le; lia|].
          split; [eapply (make_certw d' pred' cl (S low) up j k); auto; try lia; rewrite Hd'j; red; eauto|].
          split; [lia|]. split; [auto|].
          intros p Hp. assert (Hpm : (cl @ p < m)%nat) by (apply perm_lt; auto; lia).
          destruct (wb_fin _ _ _ _ _ Hb p) as [x Ex]; [lia|]. exists x. split; auto.
          destruct (wb_val _ _ _ _ _ Hb _ Hpm) as [X|(r & X & Br)]; rewrite Ex in X; [discriminate|].
          inversion X; subst r. eapply bnd_le; [|exact Br]. apply lim_le; lia.
      + rewrite set_ok by lia. cbn [bind]. apply wp_ret. simpl. fold d' pred'.
        split; auto. split; [lia|]. split; [auto|]. split; [auto|].
        split; [intros; apply Hd'F; auto|]. split; [auto|].
        intros p Hp Hpm Hap. destruct (Nat.eq_dec p k) as [->|].
        * fold j. rewrite Hd'j. red; eauto.
        * apply Hd'F, Hrel; auto; lia. }
  intros [[[[d pred] cl] up] e] [HJ|HI].
  - destruct HJ as (e' & -> & Hfnd). apply wp_ret. unfold step_postw. simpl. exact Hfnd.
  - destruct HI as (-> & Hup & Hb & Hcl & Hdle & Hag & Hrel).
    apply wp_ret. unfold step_postw. simpl. split; auto.
    replace (up0 + (m - up0))%nat with m in * by lia.
    constructor; simpl; auto.
    + intros p Hp. unfold relw. rewrite Hcl by lia.
      destruct (Nat.eq_dec p low) as [->|].
      * intros i' Ei' k Hk Hak. fold j1 in Ei'.
        assert (i' = i) by congruence. subst i'.
        destruct (perm_surj m cl k (wb_perm _ _ _ _ _ Hb) Hk) as (q & Hq & <-). apply Hrel; auto.
      * intros i' Ei' k Hk Hak. apply Hdle. apply (HR p) with (i := i'); auto. lia.
    + right. exists mu. split; auto. eapply bnd_le; [|exact Hmu]. apply lim_le; lia.
    + intros p Hp. apply Hag. lia.
Qed.

Lemma dij_step_w F st : dinvw st -> wp F (dij_step roundN m C v colsol st) (step_postw st).
Proof.
  intros HI. destruct HI as [HB HR HE HL HM HS]. unfold dij_step.
  pose proof (wb_up _ _ _ _ _ HB) as Hup.
  destruct (Nat.eqb_spec (p_up st) (p_low st)) as [Eq|Hne].
  - apply wp_bind. apply wp_bind.
    eapply wp_conseq; [apply (find_min_w F _ _ _ _ _ HB Eq)|].
    + eapply exists_todo_w; eauto.
    + intros [[cl' up'] mn] (mu & -> & Bmu & HB' & Hlu & Hpre).
      pose proof (wb_up _ _ _ _ _ HB') as Hup'.
      apply wp_bind. eapply wp_conseq; [apply (find_unassigned_w F cl' (p_low st) up')|].
      { apply HB'. }
      { apply HB'. }
      intros [e|] He.
      * simpl. unfold step_postw. simpl.
        destruct He as (p & Hp & Ep & Ec).
        exists mu, (p_low st). simpl. split; auto. split; [eapply bnd_le; [|exact Bmu]; apply lim_le; lia|].
        split; [eapply (make_certw (p_d st) (p_pred st) cl' (p_low st) up' e p); auto; try lia; rewrite <- Ep; apply (wb_fin _ _ _ _ _ HB'); lia|].
        split; [lia|]. split; [apply HB|].
        intros q Hq. assert (Hqm : (cl' @ q < m)%nat) by (apply perm_lt; [apply HB'|lia]).
        destruct (wb_fin _ _ _ _ _ HB' q) as [x Ex]; [lia|]. exists x. split; auto.
        destruct (wb_val _ _ _ _ _ HB' _ Hqm) as [X|(r & X & Br)]; rewrite Ex in X; [discriminate|].
        inversion X; subst r. eapply bnd_le; [|exact Br]. apply lim_le; lia.
      * apply wp_ret. simpl.
        eapply wp_conseq.
        { apply scan_w; simpl; auto.
          - intros q Hq i. rewrite Hpre by auto. apply HR; auto.
          - eauto. }
        intros st' H. exact H.
  - cbn [bind]. rewrite HE. apply scan_w; auto.
    + destruct HM as [H0|HM]; auto. lia.
    + lia.
Qed.

Lemma dij_loop_w F fuel st :
  dinvw st -> (m < fuel + p_low st)%nat ->
  wp F (dij_loop roundN fuel m C v colsol st) (fun r => foundw (fst r) (snd r)).
Proof.
  revert st; induction fuel as [|fuel IH]; intros st HI Hfu.
  - exfalso. pose proof (wb_up _ _ _ _ _ (dw_base _ HI)). lia.
  - simpl. apply wp_bind. eapply wp_conseq; [apply dij_step_w; auto|].
    intros st' Hp. unfold step_postw in Hp. destruct (p_end st') as [e|] eqn:E.
    + apply wp_ret. exact Hp.
    + destruct Hp as [HI' El]. apply IH; auto. lia.
Qed.

(** Distances at the start. *)
Lemma init_w F :
  wp F (for_loop m 0
         (fun j d =>
            c <- get C (f * m + j);;
            vj <- get v j;;
            Ok (d ++ [nsub roundN c vj])) [])
    (fun d => d = map (fun j => nsub roundN (c m C f j) (nth j v NaN)) (seq 0 m)).
Proof.
  eapply wp_conseq.
  { apply (wp_for F m 0 _ (fun k d => d = map (fun j => nsub roundN (c m C f j) (nth j v NaN)) (seq 0 k))); auto.
    intros k d Hk ->. rewrite (get_c n m C HC) by (auto; lia). cbn [bind].
    rewrite (get_ok _ _ NaN) by lia. cbn [bind]. apply wp_ret.
    rewrite seq_S, map_app. reflexivity. }
  intros d H. exact H.
Qed.

Lemma init_invw :
  dinvw (mkDij (map (fun j => nsub roundN (c m C f j) (nth j v NaN)) (seq 0 m)) (repeat f m) (seq 0 m) 0 0 0 (n0 roundN) None).
Proof.
  set (h := fun j => nsub roundN (c m C f j) (nth j v NaN)).
  assert (Hn : forall k, (k < m)%nat -> dat (map h (seq 0 m)) k = h k).
  { intros k Hk. rewrite nth_indep with (d' := h 0%nat) by (rewrite map_length, seq_length; auto).
    rewrite map_nth, seq_nth; auto. }
  assert (Hr : forall k, (k < m)%nat -> nth k (repeat f m) 0%nat = f).
  { intros k Hk. rewrite nth_indep with (d' := f) by (rewrite repeat_length; auto). apply nth_repeat. }
  constructor; simpl; auto; try (intros; lia).
  constructor; simpl.
  - rewrite map_length, seq_length; auto.
  - apply repeat_length.
  - split; [apply seq_length|]. split; [apply seq_NoDup|]. intros x Hx; apply in_seq in Hx; lia.
  - lia.
  - intros k Hk. rewrite Hn by auto. unfold h. destruct (red_val f k Hf Hk) as [(_ & x & E & Bx)|[_ E]]; rewrite E; [right; eauto|left; auto].
  - intros k Hk. rewrite Hr; auto.
  - intros k Hk Hak. rewrite Hn by auto. unfold h. destruct (red_val f k Hf Hk) as [(_ & x & E & Bx)|[X _]]; [rewrite E; red; eauto|congruence].
  - intros; lia.
  - intros; lia.
  - intros p Hp E. rewrite seq_nth in E |- * by auto. simpl in E. rewrite Hn in E by auto.
    simpl plus. unfold stepw. rewrite Hr by auto. unfold h in E.
    destruct (red_val f p Hf Hp) as [(X & _)|[_ X]]; [auto|]. rewrite X in E. destruct E; discriminate.
Qed.

(** The price update. *)
Definition new_vw (v' : list (ext R)) : Prop :=
  length v' = m /\
  forall k, (k < m)%nat -> if lk v k then nth k v' NaN = NInf else exists x, nth k v' NaN = Fin x /\ bnd (a + 20) 1 x.

Lemma prices_w F st e : foundw st e -> wp F (update_prices roundN v st) new_vw.
Proof.
  intros (mu & low & Em & Bmu & Hc & Hlast & Hld & Hin). unfold update_prices.
  pose proof (cw_perm _ _ _ _ Hc) as HP. pose proof HP as (Hl & _).
  pose proof (cw_low _ _ _ _ Hc) as Hlow.
  assert (Hup : forall x, bnd a (1 + lim m + lim m) x -> bnd (a + 20) 1 x).
  { intros x Hx. unfold bnd at 1. rewrite Rmult_1_l. eapply bnd_pow; [|exact Hx]. unfold lim. lia. }
  eapply wp_conseq.
  { apply (wp_for F (p_last st) 0 _ (fun t v' =>
      length v' = m /\
      (forall p, (p < t)%nat -> if lk v (p_collist st @ p) then nth (p_collist st @ p) v' NaN = NInf
             else exists x, nth (p_collist st @ p) v' NaN = Fin x /\ bnd (a + 20) 1 x) /\
      (forall p, (t <= p < m)%nat -> nth (p_collist st @ p) v' NaN = nth (p_collist st @ p) v NaN))).
    - split; [auto|]. split; auto. intros; lia.
    - intros t v' Ht (Hlv' & Hv1 & Hv2).
      assert (Hcm : (p_collist st @ t < m)%nat) by (apply perm_lt; auto; lia).
      rewrite (get_ok _ _ 0%nat) by lia. cbn [bind].
      rewrite (get_ok _ _ NaN) by lia. cbn [bind].
      rewrite (get_ok _ _ NaN) by lia. cbn [bind].
      rewrite Hv2 by lia. destruct (Hin t) as (x & Ex & Bx); [lia|]. rewrite Ex, Em.
      apply wp_set; [lia|]. split; [rewrite upd_length; auto|]. split.
      + intros p Hp. rewrite nth_upd by lia.
        destruct (Nat.eqb_spec (p_collist st @ t) (p_collist st @ p)) as [E|Hne].
        * rewrite <- E. destruct (w_cases n m C _ _ _ _ Hcore Hcm) as [(-> & El)|(-> & El)]; rewrite El; auto.
          destruct (add_bnd a 1 (lim m) (vr v (p_collist st @ t)) x) as (y & Ey & By); auto; try (unfold lim; lia).
          rewrite Ey. destruct (sub_bnd a (1 + lim m) (lim m) y mu) as (z & Ez & Bz); auto; try (unfold lim; lia).
          rewrite Ez. eauto.
        * destruct (Nat.eq_dec p t) as [->|]; [congruence|]. apply Hv1. lia.
      + intros p Hp. rewrite nth_upd_neq; [apply Hv2; lia|].
        intros E. apply (perm_inj m) in E; auto; lia. }
  simpl. intros v' (Hlv' & Hv1 & Hv2). split; auto. intros k Hk.
  destruct (perm_surj _ _ _ HP Hk) as (p & Hp & <-).
  destruct (Nat.lt_ge_cases p (p_last st)); [apply Hv1; auto|]. rewrite Hv2 by lia.
  destruct (w_cases n m C _ _ _ _ Hcore Hk) as [(-> & El)|(-> & El)]; rewrite El; auto.
  eexists. split; [reflexivity|]. apply Hup. eapply bnd_le; [|apply Hvb; auto]. unfold lim. lia.
Qed.

Section NewV.
Variables (pred cl : list nat) (low e : nat) (v' : list (ext R)).
Hypothesis Hcert : certw pred cl low e.
Hypothesis Hnew : new_vw v'.

Lemma nw_lk k : (k < m)%nat -> lk v' k = lk v k.
Proof.
  intros Hk. destruct Hnew as [_ H]. specialize (H k Hk). unfold lk at 1.
  destruct (lk v k); [rewrite H; auto|]. destruct H as (x & -> & _); auto.
Qed.

Lemma nw_v k : (k < m)%nat -> nth k v' NaN = NInf \/ exists x, nth k v' NaN = Fin x.
Proof.
  intros Hk. destruct Hnew as [_ H]. specialize (H k Hk). destruct (lk v k); auto. destruct H as (x & E & _); eauto.
Qed.

Lemma nw_bnd k : (k < m)%nat -> lk v' k = false -> bnd (a + 20) 1 (vr v' k).
Proof.
  intros Hk E. rewrite nw_lk in E by auto. destruct Hnew as [_ H]. specialize (H k Hk). rewrite E in H.
  destruct H as (x & Ex & B). unfold vr. rewrite Ex. auto.
Qed.

(** Columns the path can go through. *)
Definition onpath (j : nat) : Prop := j = e \/ exists p, (p < low)%nat /\ j = cl @ p.
(** An old pair, or a column of the path with the row it was reached from. *)
Definition paired (j i : nat) : Prop := col j = Some i \/ (onpath j /\ i = nth j pred 0%nat).

Record flipw (rs cs : list (option nat)) (g bound : nat) : Prop := {
  fw_lr : length rs = n;
  fw_lc : length cs = m;
  fw_g : (g < m)%nat;
  fw_bound : (bound <= low)%nat;
  fw_step : stepw pred cl bound g;
  fw_a1 : forall j i, (j < m)%nat -> j <> g -> nth j cs None = Some i ->
            (i < n)%nat /\ nth i rs None = Some j /\ finb m C i j = true;
  fw_alt : forall j i k, (j < m)%nat -> j <> g -> nth j cs None = Some i -> lk v j = true ->
            (k < m)%nat -> k <> j -> finb m C i k = true -> lk v k = true;
  fw_forced : forall j i s, (j < m)%nat -> j <> g -> nth j cs None = Some i -> lk v j = true ->
            feas n m C s -> s i = j;
  fw_rows : forall i, (exists j, (j < m)%nat /\ j <> g /\ nth j cs None = Some i) <-> assigned colsol i;
  fw_none : forall j, (j < m)%nat -> j <> g -> nth j cs None = None -> col j = None;
  fw_old : forall p, (p < bound)%nat -> nth (cl @ p) cs None = col (cl @ p);
  fw_gpos : forall p, (p < bound)%nat -> cl @ p <> g;
  fw_on : onpath g;
  fw_pairs : forall j i, (j < m)%nat -> j <> g -> nth j cs None = Some i -> paired j i }.

Lemma flip_w F fuel rs cs g bound :
  flipw rs cs g bound -> (bound < fuel)%nat ->
  wp F (flip_path fuel pred f g rs cs)
    (fun r => wcore (fst r) (snd r) v' /\
       (forall i, assigned (snd r) i <-> (i = f \/ assigned colsol i)) /\
       (forall j, (j < m)%nat -> nth j (snd r) None = None -> col j = None) /\
       (forall j i, (j < m)%nat -> nth j (snd r) None = Some i -> paired j i)).
Proof.
  revert rs cs g bound. induction fuel as [|fuel IH]; intros rs cs g bound HI Hfu; [lia|].
  destruct HI as [H1 H2 H3 H4 H5 H6 Halt Hfor H7 H8 H9 H10 Hon Hpr]. simpl.
  rewrite (get_ok _ _ 0%nat) by (rewrite (cw_lp _ _ _ _ Hcert); auto). cbn [bind].
  rewrite set_ok by lia. cbn [bind].
  assert (Hi : (nth g pred 0 < n)%nat) by (apply (cw_pred _ _ _ _ Hcert); auto).
  rewrite (get_ok _ _ None) by lia. cbn [bind].
  rewrite set_ok by lia. cbn [bind].
  pose proof (step_lk _ _ _ _ H5) as Hlg.
  assert (Hfg : finb m C (nth g pred 0%nat) g = true) by (destruct H5 as [X _]; apply av_split in X; tauto).
  set (i := nth g pred 0%nat) in *.
  destruct (Nat.eqb_spec i f) as [Eif|Hif].
  - apply wp_ret. simpl.
    assert (Hfno : forall j, (j < m)%nat -> j <> g -> nth j cs None <> Some f).
    { intros j Hj Hne E. apply Hfree. apply H7. eauto. }
    split.
    + constructor.
      * rewrite upd_length; auto.
      * rewrite upd_length; auto.
      * apply Hnew.
      * apply nw_v.
      * intros j i' Hj E. destruct (Nat.eq_dec g j) as [<-|Hne].
        -- rewrite nth_upd_eq in E by lia. inversion E; subst i'. split; auto. apply nth_upd_eq; lia.
        -- rewrite nth_upd_neq in E by auto. destruct (H6 j i' Hj) as (A & B & _); auto. split; auto.
           rewrite nth_upd_neq; auto. intros X. apply (Hfno j); auto. congruence.
      * intros j Hj E. destruct (Nat.eq_dec g j) as [<-|Hne].
        -- rewrite nth_upd_eq in E by lia. discriminate.
        -- rewrite nth_upd_neq in E by auto. rewrite nw_lk by auto. apply (wc_un _ _ _ _ _ _ Hcore); auto.
      * intros j i' Hj E. destruct (Nat.eq_dec g j) as [<-|Hne].
        -- rewrite nth_upd_eq in E by lia. inversion E; subst i'. auto.
        -- rewrite nth_upd_neq in E by auto. destruct (H6 j i' Hj) as (_ & _ & X); auto.
      * intros j i' k Hj E Hl Hk Hkj Hfk. rewrite nw_lk in Hl |- * by auto. destruct (Nat.eq_dec g j) as [<-|Hne]; [congruence|].
        rewrite nth_upd_neq in E by auto. apply (Halt j i' k); auto.
      * intros j i' s Hj E Hl Hs. rewrite nw_lk in Hl by auto. destruct (Nat.eq_dec g j) as [<-|Hne]; [congruence|].
        rewrite nth_upd_neq in E by auto. apply (Hfor j i' s); auto.
    + split; [|split].
      2:{ intros j Hj E. destruct (Nat.eq_dec g j) as [<-|Hne]; [rewrite nth_upd_eq in E by lia; discriminate|].
          rewrite nth_upd_neq in E by auto. apply H8; auto. }
      2:{ intros j i' Hj E. destruct (Nat.eq_dec g j) as [<-|Hne].
          - rewrite nth_upd_eq in E by lia. inversion E; subst i'. right. auto.
          - rewrite nth_upd_neq in E by auto. apply Hpr; auto. }
      intros i'. unfold LapBase.assigned at 1. split.
      * intros (j & Hj & E). destruct (Nat.eq_dec g j) as [<-|Hne].
        -- rewrite nth_upd_eq in E by lia. left; congruence.
        -- rewrite nth_upd_neq in E by auto. right. apply H7. exists j; auto.
      * intros [->|X].
        -- exists g. split; auto. rewrite nth_upd_eq by lia. congruence.
        -- apply H7 in X. destruct X as (j & Hj & Hne & E). exists j. split; auto. rewrite nth_upd_neq; auto.
  - destruct H5 as [Hav Hs]. fold i in Hav, Hs.
    destruct Hs as [X|(q & Hq & Ec)]; [congruence|].
    assert (Hcq : (cl @ q < m)%nat).
    { apply perm_lt; [apply Hcert|]. pose proof (cw_low _ _ _ _ Hcert). lia. }
    assert (Hqg : cl @ q <> g) by (apply H10; auto).
    assert (Ecs : nth (cl @ q) cs None = Some i) by (rewrite H9; auto).
    destruct (H6 _ _ Hcq Hqg Ecs) as (_ & Ers & _).
    rewrite Ers. cbn [idx bind].
    apply IH with q; [|lia].
    constructor.
    + rewrite upd_length; auto.
    + rewrite upd_length; auto.
    + auto.
    + lia.
    + apply (cw_path _ _ _ _ Hcert). lia.
    + intros j i' Hj Hne E. destruct (Nat.eq_dec g j) as [<-|Hng].
      * rewrite nth_upd_eq in E by lia. inversion E; subst i'. split; auto. split; auto.
        apply nth_upd_eq; lia.
      * rewrite nth_upd_neq in E by auto. destruct (H6 j i' Hj) as (A & B & D); auto.
        split; auto. split; auto. rewrite nth_upd_neq; auto.
        intros X. rewrite <- X, Ers in B. congruence.
    + intros j i' k Hj Hne E Hl Hk Hkj Hfk. destruct (Nat.eq_dec g j) as [<-|Hng]; [congruence|].
      rewrite nth_upd_neq in E by auto. apply (Halt j i' k); auto.
    + intros j i' s Hj Hne E Hl Hs. destruct (Nat.eq_dec g j) as [<-|Hng]; [congruence|].
      rewrite nth_upd_neq in E by auto. apply (Hfor j i' s); auto.
    + intros i'. rewrite <- H7. split.
      * intros (j & Hj & Hne & E). destruct (Nat.eq_dec g j) as [<-|Hng].
        -- rewrite nth_upd_eq in E by lia. inversion E; subst i'. exists (cl @ q). auto.
        -- rewrite nth_upd_neq in E by auto. exists j; auto.
      * intros (j & Hj & Hne & E). destruct (Nat.eq_dec j (cl @ q)) as [->|Hng].
        -- exists g. split; auto. split; auto. rewrite nth_upd_eq by lia. congruence.
        -- exists j. split; auto. split; auto. rewrite nth_upd_neq; auto.
    + intros j Hj Hne E. destruct (Nat.eq_dec g j) as [<-|Hng].
      * rewrite nth_upd_eq in E by lia. discriminate.
      * rewrite nth_upd_neq in E by auto. apply H8; auto.
    + intros p Hp. rewrite nth_upd_neq; [apply H9; lia|]. intros X. apply (H10 p); auto. lia.
    + intros p Hp E. apply (perm_inj m) in E; [lia|apply Hcert| |]; pose proof (cw_low _ _ _ _ Hcert); lia.
    + right. exists q. split; auto. lia.
    + intros j i' Hj Hne E. destruct (Nat.eq_dec g j) as [<-|Hng].
      * rewrite nth_upd_eq in E by lia. inversion E; subst i'. right. auto.
      * rewrite nth_upd_neq in E by auto. apply Hpr; auto.
Qed.

Lemma flip_startw : flipw rowsol colsol e low.
Proof.
  constructor; auto; try (apply (cw_e _ _ _ _ Hcert)); try apply Hcert.
  - intros j i Hj _ E. destruct (wc_a1 _ _ _ _ _ _ Hcore _ _ Hj E). split; auto. split; auto.
    apply (wc_fin _ _ _ _ _ _ Hcore); auto.
  - intros j i k Hj _ E Hl Hk Hkj Hfk. apply (wc_alt _ _ _ _ _ _ Hcore j i k); auto.
  - intros j i s Hj _ E Hl Hs. apply (wc_forced _ _ _ _ _ _ Hcore j i s); auto.
  - intros i. unfold LapBase.assigned. split.
    + intros (j & Hj & _ & E). eauto.
    + intros (j & Hj & E). exists j. split; auto. split; auto. intros ->.
      rewrite (cw_ecol _ _ _ _ Hcert) in E. discriminate.
  - intros p Hp X. destruct (cw_asg _ _ _ _ Hcert p Hp) as [i Ei]. rewrite X, (cw_ecol _ _ _ _ Hcert) in Ei. discriminate.
  - left. auto.
  - intros j i Hj _ E. left. auto.
Qed.
End NewV.

Lemma augment_w F :
  wp F (augment roundN n m C f (rowsol, colsol, v))
    (fun r => let '(rs, cs, v') := r in
       wcore rs cs v' /\ (forall i, assigned cs i <-> (i = f \/ assigned colsol i)) /\
       forall j, (j < m)%nat -> lk v' j = false -> bnd (a + 20) 1 (vr v' j)).
Proof.
  unfold augment. apply wp_bind. eapply wp_conseq; [apply init_w|]. intros d ->.
  apply wp_bind. eapply wp_conseq; [apply (dij_loop_w F (S m)); [apply init_invw|simpl; lia]|].
  intros [st e] Hfnd. cbn [fst snd] in Hfnd.
  apply wp_bind. eapply wp_conseq; [eapply prices_w; eauto|]. intros v' Hv'.
  destruct Hfnd as (mu & low & _ & _ & Hc & _).
  apply wp_bind. eapply wp_conseq.
  { apply (flip_w (p_pred st) (p_collist st) low e v' Hc Hv' F (S m) rowsol colsol e low); [eapply flip_startw; eauto|].
    pose proof (cw_low _ _ _ _ Hc). lia. }
  intros [rs cs] (H1 & H2 & _). apply wp_ret. split; auto. split; auto.
  intros j Hj Hl. apply nw_bnd; auto.
Qed.
End Dij.
