(** The shortest augmenting path phase: the search finds a path, and the new
    prices and assignment keep the invariant. *)
From Coq Require Import List Arith Bool Lia Reals Lra.
Import ListNotations.
From Verif Require Import Res Scalar Lap LapBase LapArr.
Open Scope R_scope.

(** [cl] lists the columns [0..m) in some order. *)
Definition perm_list (m : nat) (cl : list nat) : Prop :=
  length cl = m /\ NoDup cl /\ forall x, In x cl -> (x < m)%nat.

Lemma perm_lt m cl p : perm_list m cl -> (p < m)%nat -> (nth p cl 0 < m)%nat.
Proof. intros (Hl & _ & H) Hp. apply H, nth_In. lia. Qed.

Lemma perm_inj m cl p q : perm_list m cl -> (p < m)%nat -> (q < m)%nat ->
  nth p cl 0%nat = nth q cl 0%nat -> p = q.
Proof. intros (Hl & Hn & _) Hp Hq E. eapply NoDup_nth; eauto; lia. Qed.

Lemma perm_surj m cl j : perm_list m cl -> (j < m)%nat ->
  exists p, (p < m)%nat /\ nth p cl 0%nat = j.
Proof.
  intros (Hl & Hn & H) Hj.
  assert (incl (seq 0 m) cl) as X.
  { apply NoDup_length_incl; auto.
    - rewrite seq_length; lia.
    - intros x Hx. apply in_seq. specialize (H x Hx). lia. }
  assert (In j cl) as Hin by (apply X, in_seq; lia).
  apply (In_nth _ _ 0%nat) in Hin. destruct Hin as (p & Hp & E). exists p. split; auto; lia.
Qed.

Definition swp (cl : list nat) (k u : nat) : list nat :=
  upd (upd cl k (nth u cl 0%nat)) u (nth k cl 0%nat).

Lemma swp_nth m cl k u p : perm_list m cl -> (k < m)%nat -> (u < m)%nat ->
  nth p (swp cl k u) 0%nat =
  if (p =? u)%nat then nth k cl 0%nat
  else if (p =? k)%nat then nth u cl 0%nat else nth p cl 0%nat.
Proof.
  intros (Hl & _) Hk Hu. unfold swp. rewrite nth_upd by (rewrite upd_length; lia).
  destruct (Nat.eqb_spec u p); destruct (Nat.eqb_spec p u); try lia; auto.
  rewrite nth_upd by lia. destruct (Nat.eqb_spec k p); destruct (Nat.eqb_spec p k); try lia; auto.
Qed.

Lemma swp_perm m cl k u : perm_list m cl -> (k < m)%nat -> (u < m)%nat ->
  perm_list m (swp cl k u).
Proof.
  intros H Hk Hu. pose proof H as (Hl & Hn & Hb).
  assert (Hl' : length (swp cl k u) = m) by (unfold swp; rewrite !upd_length; auto).
  split; [auto|]. split.
  - apply (NoDup_nth _ 0%nat). intros p q Hp Hq E. rewrite Hl' in *.
    rewrite !(swp_nth m) in E by auto.
    destruct (Nat.eqb_spec p u), (Nat.eqb_spec q u), (Nat.eqb_spec p k), (Nat.eqb_spec q k);
      apply (perm_inj m) in E; auto; lia.
  - intros x Hx. apply (In_nth _ _ 0%nat) in Hx. destruct Hx as (p & Hp & <-). rewrite Hl' in Hp.
    rewrite (swp_nth m) by auto.
    destruct (p =? u)%nat; [|destruct (p =? k)%nat]; apply perm_lt; auto.
Qed.

(** Values that occur as distances. *)
Definition isup (x : ext R) : Prop := x = PInf \/ exists r, x = Fin r.
Definition ele (a b : ext R) : Prop := nle extR a b = true.
Definition dle (a : ext R) (y : R) : Prop := exists x, a = Fin x /\ x <= y.

Lemma ele_refl a : isup a -> ele a a.
Proof.
  intros [->|[r ->]]; unfold ele; auto. rewrite le_FF. destruct (Rleb_spec r r); auto. lra.
Qed.

Lemma ele_F a b : ele (Fin a) (Fin b) <-> a <= b.
Proof. unfold ele. rewrite le_FF. destruct (Rleb_spec a b); split; auto; try lra; discriminate. Qed.

Lemma ele_P a : isup a -> ele a PInf.
Proof. intros [->|[r ->]]; reflexivity. Qed.

Lemma ele_trans a b c : isup a -> isup b -> isup c -> ele a b -> ele b c -> ele a c.
Proof.
  intros [->|[r ->]] [->|[s ->]] [->|[t ->]]; auto; try discriminate.
  rewrite !ele_F. lra.
Qed.

Lemma nle_false a b : isup a -> isup b -> nle extR a b = false -> ele b a.
Proof.
  intros [->|[r ->]] [->|[s ->]]; try (intros; reflexivity); try discriminate.
  rewrite le_FF, ele_F. destruct (Rleb_spec r s); try discriminate. lra.
Qed.

Lemma nlt_true a b : isup a -> isup b -> nlt extR a b = true -> ele a b.
Proof.
  intros [->|[r ->]] [->|[s ->]]; try (intros; reflexivity); try discriminate.
  rewrite lt_FF, ele_F. destruct (Rltb_spec r s); try discriminate. lra.
Qed.

Lemma nle_nlt_false a b : isup a -> isup b -> nle extR a b = true -> nlt extR a b = false -> a = b.
Proof.
  intros [->|[r ->]] [->|[s ->]]; auto; try discriminate.
  rewrite lt_FF, le_FF. destruct (Rleb_spec r s), (Rltb_spec r s); try discriminate.
  intros; f_equal; lra.
Qed.

Section Dij.
Variables (n m : nat) (C : list (ext R)).
Hypothesis HC : wfC n m C.
Hypothesis Hhall : hall n m C.

Notation vok := (vok m).
Notation core := (core n m C).
Notation pairok := (pairok n m C).
Notation assigned := (assigned m).
Notation av := (av m C).
Notation rc := (rc m C).

Variables (rowsol colsol : list (option nat)) (v : list (ext R)) (f : nat).
Hypothesis Hcore : core rowsol colsol v.
Hypothesis Hf : (f < n)%nat.
Hypothesis Hfree : ~ assigned colsol f.

Let Hv : vok v := co_v _ _ _ _ _ _ Hcore.
Let Hlc : length colsol = m := co_lc _ _ _ _ _ _ Hcore.
Let Hlr : length rowsol = n := co_lr _ _ _ _ _ _ Hcore.

Notation "cl @ p" := (nth p cl 0%nat) (at level 20).
Notation dat d j := (nth j d NaN).
Notation col j := (nth j colsol None).

(** Where the distance of a column comes from. *)
Definition tight (d : list (ext R)) (pred cl : list nat) (low p : nat) (x : R) : Prop :=
  let k := cl @ p in
  let i := nth k pred 0%nat in
  av v i k = true /\
  ((i = f /\ x = rc v f k) \/
   (exists q y, (q < p)%nat /\ (q < low)%nat /\ col (cl @ q) = Some i /\
      dat d (cl @ q) = Fin y /\ x = y + rc v i k - rc v i (cl @ q))).

(** All columns reachable from the column at position [p] have been updated. *)
Definition relaxed (d : list (ext R)) (cl : list nat) (p : nat) : Prop :=
  forall i x, col (cl @ p) = Some i -> dat d (cl @ p) = Fin x ->
    forall k, (k < m)%nat -> av v i k = true ->
      dle (dat d k) (x + rc v i k - rc v i (cl @ p)).

Record dbase (d : list (ext R)) (pred cl : list nat) (low up : nat) : Prop := {
  db_ld : length d = m;
  db_lp : length pred = m;
  db_perm : perm_list m cl;
  db_up : (low <= up <= m)%nat;
  db_val : forall k, (k < m)%nat -> isup (dat d k);
  db_pred : forall k, (k < m)%nat -> (nth k pred 0%nat < n)%nat;
  db_src : forall k, (k < m)%nat -> av v f k = true -> dle (dat d k) (rc v f k);
  db_asg : forall p, (p < low)%nat -> exists i, col (cl @ p) = Some i;
  db_tight : forall p x, (p < m)%nat -> dat d (cl @ p) = Fin x -> tight d pred cl low p x }.

(** With the current minimum [mu]. *)
Record dmin (d : list (ext R)) (cl : list nat) (low up last : nat) (mu : R) : Prop := {
  dm_last : (last <= low)%nat;
  dm_ready : forall p, (p < low)%nat -> exists x, dat d (cl @ p) = Fin x /\ x <= mu;
  dm_scan : forall p, (last <= p < up)%nat -> dat d (cl @ p) = Fin mu;
  dm_todo : forall p, (up <= p < m)%nat -> ele (Fin mu) (dat d (cl @ p)) }.

Lemma tight_lk d pred cl low p x : tight d pred cl low p x -> (p < m)%nat -> lk v (cl @ p) = false.
Proof. intros [H _] _. apply av_split in H. tauto. Qed.

(** Some column that is not ready has a finite distance. *)
Lemma exists_todo d pred cl low up :
  dbase d pred cl low up ->
  (forall p, (p < low)%nat -> exists x, dat d (cl @ p) = Fin x) ->
  (forall p, (p < low)%nat -> relaxed d cl p) ->
  exists p x, (low <= p < m)%nat /\ dat d (cl @ p) = Fin x.
Proof.
  intros HB Hr Hx.
  pose proof (db_perm _ _ _ _ _ HB) as HP. pose proof HP as (Hl & Hnd & Hlt).
  pose proof (db_up _ _ _ _ _ HB) as Hup.
  assert (Hpos : forall k x, (k < m)%nat -> dat d k = Fin x ->
     (exists p x, (low <= p < m)%nat /\ dat d (cl @ p) = Fin x) \/ In k (firstn low cl)).
  { intros k x Hk E. destruct (perm_surj _ _ _ HP Hk) as (p & Hp & Ep).
    destruct (Nat.lt_ge_cases p low).
    - right. rewrite <- Ep. rewrite <- (nth_firstn cl low p) by auto.
      apply nth_In. rewrite firstn_length. lia.
    - left. exists p, x. rewrite Ep. split; auto. }
  destruct (existsb (fun p => match dat d (cl @ p) with Fin _ => true | _ => false end) (seq low (m - low))) eqn:E.
  { apply existsb_exists in E. destruct E as (p & Hp & E). apply in_seq in Hp.
    destruct (dat d (cl @ p)) as [x| | |] eqn:Ed; try discriminate. exists p, x. split; auto; lia. }
  assert (Hno : forall k x, (k < m)%nat -> dat d k = Fin x -> In k (firstn low cl)).
  { intros k x Hk Ek. destruct (Hpos _ _ Hk Ek) as [(p & y & Hp & Ep)|]; auto. exfalso.
    assert (existsb (fun p => match dat d (cl @ p) with Fin _ => true | _ => false end) (seq low (m - low)) = true); [|congruence].
    apply existsb_exists. exists p. rewrite Ep. split; auto. apply in_seq; lia. }
  exfalso.
  destruct (hall_escape n m C rowsol colsol v (firstn low cl) f) as (k & Hk & Hav & Hnin); auto.
  - rewrite <- (firstn_skipn low cl) in Hnd.
    clear -Hnd. induction (firstn low cl); [constructor|]. simpl in Hnd. inversion Hnd; subst.
    constructor; auto. rewrite in_app_iff in H1. tauto.
  - intros j Hj. apply (In_nth _ _ 0%nat) in Hj. destruct Hj as (p & Hp & Ep).
    rewrite firstn_length in Hp. rewrite nth_firstn in Ep by lia. subst j.
    assert (p < low)%nat by lia.
    destruct (Hr p) as [x Ed]; auto.
    split; [apply perm_lt; auto; lia|]. split.
    { eapply tight_lk; [eapply db_tight; eauto; lia|lia]. }
    destruct (db_asg _ _ _ _ _ HB p) as [i Ei]; auto.
    exists i. split; auto. intros k Hk Hav.
    destruct (Hx p H i x Ei Ed k Hk Hav) as (y & Ey & _). eauto.
  - destruct (db_src _ _ _ _ _ HB k Hk Hav) as (x & E' & _). apply Hnin. eauto.
Qed.

(** Result of collecting the columns at the minimum. *)
Lemma find_min_spec F d pred cl low up :
  dbase d pred cl low up -> up = low ->
  (exists p x, (low <= p < m)%nat /\ dat d (cl @ p) = Fin x) ->
  (forall p x, (p < low)%nat -> dat d (cl @ p) = Fin x ->
      forall q, (low <= q < m)%nat -> ele (Fin x) (dat d (cl @ q))) ->
  (forall p, (p < low)%nat -> exists x, dat d (cl @ p) = Fin x) ->
  wp F (find_min extR m d cl low up)
    (fun r => let '(cl', up', mn) := r in
       exists mu, mn = Fin mu /\ dbase d pred cl' low up' /\ (low < up')%nat /\
         dmin d cl' low up' low mu /\
         (forall p, (p < low)%nat -> cl' @ p = cl @ p)).
Proof.
  intros HB -> (p0 & x0 & Hp0 & Ex0) Hmono Hready.
  pose proof (db_perm _ _ _ _ _ HB) as HP. pose proof HP as (Hl & Hnd & Hlt).
  pose proof (db_ld _ _ _ _ _ HB) as Hld.
  unfold find_min.
  rewrite (get_ok _ _ 0%nat) by lia. cbn [bind].
  assert (Hc0 : (cl @ low < m)%nat) by (apply perm_lt; auto; lia).
  rewrite (get_ok _ _ NaN) by lia. cbn [bind].
  set (I := fun (k : nat) (s : list nat * nat * ext R) =>
    let '(cl', up', mn) := s in
    perm_list m cl' /\ (low < up' <= k)%nat /\ isup mn /\
    (forall p, (p < low)%nat -> cl' @ p = cl @ p) /\
    (forall p, (low <= p < up')%nat -> dat d (cl' @ p) = mn) /\
    (forall p, (up' <= p < k)%nat -> ele mn (dat d (cl' @ p)))).
  eapply wp_conseq.
  { apply (wp_for F (m - S low) (S low) _ I).
    - split; [apply HP|]. split; [lia|].
      split; [apply (db_val _ _ _ _ _ HB); auto|].
      split; [auto|]. split; [|intros; lia].
      intros p Hp. assert (p = low) by lia. subst p; auto.
    - intros k [[cl' up'] mn] Hk (HP' & Hup' & Hmn & Hpre & Hsc & Htd).
      pose proof HP' as (Hl' & _).
      assert (Hck : (cl' @ k < m)%nat) by (apply perm_lt; auto; lia).
      rewrite (get_ok _ _ 0%nat) by lia. cbn [bind].
      rewrite (get_ok _ _ NaN) by lia. cbn [bind].
      pose proof (db_val _ _ _ _ _ HB _ Hck) as Hh.
      destruct (nle extR (dat d (cl' @ k)) mn) eqn:E1.
      + destruct (nlt extR (dat d (cl' @ k)) mn) eqn:E2.
        * rewrite (get_ok _ _ 0%nat) by lia. cbn [bind].
          rewrite set_ok by lia. cbn [bind].
          rewrite set_ok by (rewrite upd_length; lia). cbn [bind].
          apply wp_ret. fold (swp cl' k low).
          split; [apply swp_perm; auto; lia|].
          split; [lia|]. split; [auto|].
          split; [|split].
          -- intros p Hp. rewrite (swp_nth m) by (auto; lia).
             destruct (Nat.eqb_spec p low), (Nat.eqb_spec p k); try lia. auto.
          -- intros p Hp. assert (p = low) by lia. subst p. rewrite (swp_nth m) by (auto; lia).
             rewrite Nat.eqb_refl. auto.
          -- intros p Hp. rewrite (swp_nth m) by (auto; lia).
             apply nlt_true in E2; auto.
             destruct (Nat.eqb_spec p low); [lia|]. destruct (Nat.eqb_spec p k).
             ++ rewrite (Hsc low) by lia. auto.
             ++ destruct (Nat.lt_ge_cases p up').
                ** rewrite (Hsc p) by lia. auto.
                ** assert (ele mn (dat d (cl' @ p))) by (apply Htd; lia).
                   eapply ele_trans with mn; auto. apply (db_val _ _ _ _ _ HB), perm_lt; auto; lia.
        * pose proof (nle_nlt_false _ _ Hh Hmn E1 E2) as Eh.
          rewrite (get_ok _ _ 0%nat) by lia. cbn [bind].
          rewrite set_ok by lia. cbn [bind].
          rewrite set_ok by (rewrite upd_length; lia). cbn [bind].
          apply wp_ret. fold (swp cl' k up').
          split; [apply swp_perm; auto; lia|].
          split; [lia|]. split; [auto|].
          split; [|split].
          -- intros p Hp. rewrite (swp_nth m) by (auto; lia).
             destruct (Nat.eqb_spec p up'), (Nat.eqb_spec p k); try lia. auto.
          -- intros p Hp. rewrite (swp_nth m) by (auto; lia).
             destruct (Nat.eqb_spec p up'); auto.
             destruct (Nat.eqb_spec p k); [lia|]. apply Hsc; lia.
          -- intros p Hp. rewrite (swp_nth m) by (auto; lia).
             destruct (Nat.eqb_spec p up'); [lia|]. destruct (Nat.eqb_spec p k).
             ++ apply Htd; lia.
             ++ apply Htd; lia.
      + apply wp_ret. simpl. repeat split; auto; try lia; try apply HP'.
        intros p Hp. destruct (Nat.eq_dec p k) as [->|].
        * apply nle_false; auto.
        * apply Htd; lia. }
  intros [[cl' up'] mn] (HP' & Hup' & Hmn & Hpre & Hsc & Htd).
  replace (S low + (m - S low))%nat with m in * by lia.
  assert (Hsame : forall p, (low <= p < m)%nat -> exists q, (low <= q < m)%nat /\ cl' @ q = cl @ p).
  { intros p Hp. destruct (perm_surj m cl' (cl @ p) HP') as (q & Hq & Eq).
    - apply perm_lt; auto; lia.
    - exists q. split; auto. split; auto. destruct (Nat.lt_ge_cases q low); auto. exfalso.
      rewrite Hpre in Eq by auto. apply (perm_inj m) in Eq; auto; lia. }
  assert (Hsame' : forall q, (low <= q < m)%nat -> exists p, (low <= p < m)%nat /\ cl' @ q = cl @ p).
  { intros p Hp. destruct (perm_surj m cl (cl' @ p) HP) as (q & Hq & Eq).
    - apply perm_lt; auto; lia.
    - exists q. split; auto. split; auto. destruct (Nat.lt_ge_cases q low); auto. exfalso.
      rewrite <- Hpre in Eq by auto. apply (perm_inj m) in Eq; auto; lia. }
  destruct (Hsame p0 Hp0) as (q0 & Hq0 & Eq0).
  assert (exists mu, mn = Fin mu) as [mu ->].
  { destruct (Nat.lt_ge_cases q0 up').
    - rewrite <- (Hsc q0) by lia. rewrite Eq0. eauto.
    - assert (ele mn (dat d (cl' @ q0))) as X by (apply Htd; lia).
      rewrite Eq0, Ex0 in X. destruct Hmn as [->|[r ->]]; eauto. discriminate. }
  exists mu. split; auto. split; [|split; [lia|split]]; auto.
  - destruct HB as [H1 H2 H3 H4 H5 H6 H7 H8 H9]. constructor; auto; try lia.
    + intros p Hp. rewrite Hpre by auto. auto.
    + intros p x Hp E. destruct (Nat.lt_ge_cases p low).
      * rewrite Hpre in E by auto. destruct (H9 p x) as [A B]; auto.
        unfold tight. rewrite Hpre by auto. split; auto.
        destruct B as [B|(q & y & Hq1 & Hq2 & B)]; auto. right. exists q, y.
        rewrite Hpre by auto. tauto.
      * destruct (Hsame' p) as (p' & Hp' & Ep'); [lia|].
        rewrite Ep' in E. destruct (H9 p' x) as [A B]; auto; [lia|].
        unfold tight. rewrite Ep'. split; auto.
        destruct B as [B|(q & y & Hq1 & Hq2 & B)]; auto. right. exists q, y.
        rewrite Hpre by auto. split; [lia|]. tauto.
  - constructor; auto.
    + intros p Hp. rewrite Hpre by auto. destruct (Hready p Hp) as [x E]. exists x. split; auto.
      pose proof (Hmono p x Hp E) as X.
      destruct (Hsame' low) as (p' & Hp' & Ep'); [lia|].
      specialize (X p' Hp'). rewrite <- Ep' in X. rewrite Hsc in X by lia. apply ele_F; auto.
Qed.

Lemma find_unassigned_spec F cl low up :
  perm_list m cl -> (low <= up <= m)%nat ->
  wp F (find_unassigned colsol cl low up)
    (fun r => match r with
              | Some e => exists p, (low <= p < up)%nat /\ cl @ p = e /\ col e = None
              | None => forall p, (low <= p < up)%nat -> exists i, col (cl @ p) = Some i
              end).
Proof.
  intros HP Hup. unfold find_unassigned.
  eapply wp_conseq.
  { apply (wp_for_break F (up - low) low _
      (fun k s => s = None /\ forall p, (low <= p < k)%nat -> exists i, col (cl @ p) = Some i)
      (fun s => match s with
                | Some e => exists p, (low <= p < up)%nat /\ cl @ p = e /\ col e = None
                | None => False end)).
    - split; auto. intros; lia.
    - intros k s Hk [-> HI]. pose proof HP as (Hl & _).
      rewrite (get_ok _ _ 0%nat) by lia. cbn [bind].
      assert (cl @ k < m)%nat by (apply perm_lt; auto; lia).
      rewrite (get_ok _ _ None) by lia. cbn [bind].
      apply wp_ret. destruct (col (cl @ k)) as [i|] eqn:E; simpl.
      + split; auto. intros p Hp. destruct (Nat.eq_dec p k) as [->|]; eauto. apply HI; lia.
      + exists k. split; [lia|]. auto. }
  intros s [H|[-> H]].
  - destruct s; auto. destruct H.
  - intros p Hp. apply H. lia.
Qed.

(** Certificate of a finished search; [dd] is the distance cut off at [mu]. *)
Definition ddf (d : list (ext R)) (mu : R) (k : nat) : R :=
  match dat d k with Fin x => Rmin x mu | _ => mu end.

Definition step_to (pred cl : list nat) (dd : nat -> R) (bound k : nat) : Prop :=
  let i := nth k pred 0%nat in
  av v i k = true /\
  ((i = f /\ dd k = rc v f k) \/
   (exists q, (q < bound)%nat /\ col (cl @ q) = Some i /\
      dd k = dd (cl @ q) + rc v i k - rc v i (cl @ q))).

Record cert (dd : nat -> R) (pred cl : list nat) (low e : nat) (mu : R) : Prop := {
  ce_perm : perm_list m cl;
  ce_lp : length pred = m;
  ce_pred : forall k, (k < m)%nat -> (nth k pred 0%nat < n)%nat;
  ce_low : (low <= m)%nat;
  ce_e : (e < m)%nat;
  ce_ecol : col e = None;
  ce_edd : dd e = mu;
  ce_le : forall k, (k < m)%nat -> dd k <= mu;
  ce_asg : forall p, (p < low)%nat -> exists i, col (cl @ p) = Some i;
  ce_dd : forall k, (k < m)%nat -> dd k = mu \/ exists p, (p < low)%nat /\ cl @ p = k;
  ce_src : forall k, (k < m)%nat -> av v f k = true -> dd k <= rc v f k;
  ce_rel : forall j i k, (j < m)%nat -> (k < m)%nat -> col j = Some i -> lk v j = false ->
     av v i k = true -> dd k <= dd j + rc v i k - rc v i j;
  ce_end : step_to pred cl dd low e;
  ce_path : forall p, (p < low)%nat -> step_to pred cl dd p (cl @ p) }.

(** The cut-off distances of the ready columns that matter for the prices. *)
Definition prices_ok (d : list (ext R)) (cl : list nat) (last : nat) (mu : R) (dd : nat -> R) : Prop :=
  (last <= m)%nat /\
  (forall p, (p < last)%nat -> dat d (cl @ p) = Fin (dd (cl @ p))) /\
  (forall p, (last <= p < m)%nat -> dd (cl @ p) = mu).

Lemma ddf_ge d mu k : isup (dat d k) -> ele (Fin mu) (dat d k) -> ddf d mu k = mu.
Proof.
  unfold ddf. intros [->|[r ->]]; auto. rewrite ele_F. intros. apply Rmin_right; auto.
Qed.
Lemma ddf_le d mu k x : dat d k = Fin x -> x <= mu -> ddf d mu k = x.
Proof. unfold ddf. intros -> H. apply Rmin_left; auto. Qed.
Lemma ddf_mu d mu k : ddf d mu k <= mu.
Proof. unfold ddf. destruct (dat d k); try lra. apply Rmin_r. Qed.
Lemma ddf_dle d mu k y : dle (dat d k) y -> ddf d mu k <= y.
Proof. unfold ddf. intros (x & -> & H). eapply Rle_trans; [apply Rmin_l|auto]. Qed.

(** A search state with an unassigned column at distance [mu] gives a
    certificate. *)
Lemma make_cert d pred cl low up last mu e q :
  dbase d pred cl low up -> dmin d cl low up last mu ->
  (forall p, (p < last)%nat -> relaxed d cl p) ->
  (low <= q < m)%nat -> cl @ q = e -> col e = None -> dat d e = Fin mu ->
  cert (ddf d mu) pred cl low e mu /\ prices_ok d cl last mu (ddf d mu).
Proof.
  intros HB HM HR Hq Eq Ee Ed.
  destruct HB as [B1 B2 B3 B4 B5 B6 B7 B8 B9].
  destruct HM as [M1 M2 M3 M4].
  assert (Hem : (e < m)%nat) by (subst e; apply perm_lt; auto; lia).
  assert (Hout : forall p, (last <= p < m)%nat -> ddf d mu (cl @ p) = mu).
  { intros p Hp. destruct (Nat.lt_ge_cases p up).
    - eapply ddf_le; [apply M3; lia|lra].
    - apply ddf_ge; [apply B5, perm_lt; auto; lia|apply M4; lia]. }
  assert (Hin : forall p, (p < low)%nat -> dat d (cl @ p) = Fin (ddf d mu (cl @ p))).
  { intros p Hp. destruct (M2 p Hp) as (x & E & Hx). rewrite (ddf_le _ _ _ _ E Hx). auto. }
  assert (Hstep : forall p, (p < m)%nat -> (p < low)%nat \/ p = q ->
      step_to pred cl (ddf d mu) (Nat.min p low) (cl @ p)).
  { intros p Hp Hor.
    assert (exists x, dat d (cl @ p) = Fin x /\ ddf d mu (cl @ p) = x) as (x & E & Edd).
    { destruct Hor as [H| ->].
      - rewrite Hin by auto. eauto.
      - rewrite Eq. exists mu. split; auto. eapply ddf_le; eauto. lra. }
    destruct (B9 p x Hp E) as [A B]. split; auto.
    destruct B as [[A1 A2]|(q' & y & Hq1 & Hq2 & A1 & A2 & A3)].
    - left. split; auto. congruence.
    - right. exists q'. split; [lia|]. split; auto.
      assert (y = ddf d mu (cl @ q')). { rewrite Hin in A2 by auto. congruence. }
      subst y. congruence. }
  split; [constructor; auto; try lia|].
  - eapply ddf_le; eauto. lra.
  - intros. apply ddf_mu.
  - intros k Hk. destruct (perm_surj _ _ _ B3 Hk) as (p & Hp & <-).
    destruct (Nat.lt_ge_cases p low); eauto. left. apply Hout. lia.
  - intros k Hk Hav. apply ddf_dle. auto.
  - intros j i k Hj Hk Ej Hlj Hav.
    destruct (perm_surj _ _ _ B3 Hj) as (p & Hp & <-).
    destruct (Nat.lt_ge_cases p last).
    + apply ddf_dle. apply (HR p); auto. apply Hin. lia.
    + rewrite (Hout p) by lia.
      assert (rc v i (cl @ p) <= rc v i k) by (apply (po_min _ _ _ _ _ _ (co_pair _ _ _ _ _ _ Hcore _ _ Hj Ej)); auto).
      pose proof (ddf_mu d mu k). lra.
  - rewrite <- Eq. replace low with (Nat.min q low) at 1 by lia. apply Hstep; auto; lia.
  - intros p Hp. replace p with (Nat.min p low) at 1 by lia. apply Hstep; auto; lia.
  - split; [lia|]. split; auto. intros p Hp. apply Hin. lia.
Qed.

(** The state between two steps of the search, nothing found yet. *)
Record dinv (st : dij (T := ext R)) : Prop := {
  dn_base : dbase (p_d st) (p_pred st) (p_collist st) (p_low st) (p_up st);
  dn_rel : forall p, (p < p_low st)%nat -> relaxed (p_d st) (p_collist st) p;
  dn_end : p_end st = None;
  dn_min : p_up st = 0%nat \/
           exists mu, p_min st = Fin mu /\
             dmin (p_d st) (p_collist st) (p_low st) (p_up st) (p_last st) mu;
  dn_scan : forall p, (p_low st <= p < p_up st)%nat ->
             exists i, col (p_collist st @ p) = Some i }.

(** What a finished search delivers. *)
Definition found (st : dij (T := ext R)) (e : nat) : Prop :=
  exists dd mu low, p_min st = Fin mu /\ cert dd (p_pred st) (p_collist st) low e mu /\
    prices_ok (p_d st) (p_collist st) (p_last st) mu dd /\ length (p_d st) = m.

Definition step_post (st st' : dij (T := ext R)) : Prop :=
  match p_end st' with
  | Some e => found st' e
  | None => dinv st' /\ p_low st' = S (p_low st)
  end.

Lemma nth_upd_case {A} (l : list A) k j (x d : A) :
  (k < length l)%nat -> (j = k /\ nth j (upd l k x) d = x) \/ (j <> k /\ nth j (upd l k x) d = nth j l d).
Proof.
  intros H. destruct (Nat.eq_dec j k) as [->|]; [left|right]; split; auto.
  - apply nth_upd_eq; auto.
  - apply nth_upd_neq; auto.
Qed.

Lemma dle_mono a x y : dle a x -> x <= y -> dle a y.
Proof. intros (z & -> & H) H'. exists z. split; auto. lra. Qed.

(** Scanning the column at position [low]. *)
Lemma scan_spec F st :
  dbase (p_d st) (p_pred st) (p_collist st) (p_low st) (p_up st) ->
  (forall p, (p < p_low st)%nat -> relaxed (p_d st) (p_collist st) p) ->
  p_end st = None ->
  (exists mu, p_min st = Fin mu /\
     dmin (p_d st) (p_collist st) (p_low st) (p_up st) (p_last st) mu) ->
  (forall p, (p_low st <= p < p_up st)%nat -> exists i, col (p_collist st @ p) = Some i) ->
  (p_low st < p_up st)%nat ->
  wp F (scan_column extR m C v colsol st) (step_post st).
Proof.
  destruct st as [d0 pred0 cl0 low up0 last mn e0]. simpl.
  intros HB HR -> (mu & -> & HM) Hasg Hlu.
  pose proof (db_perm _ _ _ _ _ HB) as HP0. pose proof HP0 as (Hl0 & _).
  pose proof (db_ld _ _ _ _ _ HB) as Hld0. pose proof (db_lp _ _ _ _ _ HB) as Hlp0.
  pose proof (db_up _ _ _ _ _ HB) as Hup0.
  unfold scan_column. cbn [p_d p_pred p_collist p_low p_up p_last p_min p_end].
  rewrite (get_ok _ _ 0%nat) by lia. cbn [bind].
  set (j1 := cl0 @ low).
  assert (Hj1 : (j1 < m)%nat) by (apply perm_lt; auto; lia).
  rewrite (get_ok _ _ None) by lia. cbn [bind].
  destruct (Hasg low) as [i Ei]; [lia|]. fold j1 in Ei. rewrite Ei. cbn [idx bind].
  destruct (co_a1 _ _ _ _ _ _ Hcore _ _ Hj1 Ei) as [Hi _].
  rewrite (get_c n m C HC) by auto. cbn [bind].
  rewrite (get_v m) by auto. cbn [bind].
  rewrite (h_val n m C HC) by auto.
  assert (Hd1 : dat d0 j1 = Fin mu).
  { apply (dm_scan _ _ _ _ _ _ HM). pose proof (dm_last _ _ _ _ _ _ HM). lia. }
  assert (Hlk1 : lk v j1 = false).
  { unfold j1. eapply tight_lk; [eapply (db_tight _ _ _ _ _ HB low); eauto; lia|lia]. }
  pose proof (co_pair _ _ _ _ _ _ Hcore _ _ Hj1 Ei) as HPair.
  assert (Hav1 : av v i j1 = true).
  { unfold LapBase.av. rewrite (po_fin _ _ _ _ _ _ HPair), Hlk1. auto. }
  assert (Ehh : hh m C v i j1 = Fin (rc v i j1)) by (unfold hh; rewrite Hav1; auto).
  cbv zeta. rewrite Ehh, sub_FF.
  set (h := rc v i j1 - mu).
  assert (Hmin1 : forall k, (k < m)%nat -> av v i k = true -> rc v i j1 <= rc v i k).
  { apply (po_min _ _ _ _ _ _ HPair); auto. }
  (* loop invariant *)
  set (I := fun (k : nat) (s : list (ext R) * list nat * list nat * nat * option nat) =>
    let '(d, pred, cl, up, e) := s in
    e = None /\ (up0 <= up <= k)%nat /\
    dbase d pred cl (S low) up /\
    dmin d cl (S low) up last mu /\
    (forall p, (p < up0)%nat -> cl @ p = cl0 @ p) /\
    (forall p, (p < up0)%nat -> dat d (cl0 @ p) = dat d0 (cl0 @ p)) /\
    (forall j y, dle (dat d0 j) y -> dle (dat d j) y) /\
    (forall p, (p < up)%nat -> exists i, col (cl @ p) = Some i) /\
    (forall p, (p < k)%nat -> (p < m)%nat -> av v i (cl @ p) = true ->
       dle (dat d (cl @ p)) (mu + rc v i (cl @ p) - rc v i j1))).
  set (J := fun (s : list (ext R) * list nat * list nat * nat * option nat) =>
    let '(d, pred, cl, up, e) := s in
    exists e', e = Some e' /\ found (mkDij d pred cl (S low) up last (Fin mu) e) e').
  apply wp_bind. eapply wp_conseq.
  { apply (wp_for_break F (m - up0) up0 _ I J).
    - (* entry *)
      split; [auto|]. split; [lia|].
      destruct HB as [B1 B2 B3 B4 B5 B6 B7 B8 B9]. destruct HM as [M1 M2 M3 M4].
      split; [|split; [|split; [|split; [|split; [|split]]]]]; auto.
      + constructor; auto; try lia.
        * intros p Hp. destruct (Nat.eq_dec p low) as [->|]; [eauto|]. apply B8. lia.
        * intros p x Hp E. destruct (B9 p x Hp E) as [A B]. split; auto.
          destruct B as [B|(q & y & Hq & Hq' & B)]; auto. right. exists q, y. repeat split; auto; tauto.
      + constructor; auto; try lia.
        intros p Hp. destruct (Nat.eq_dec p low) as [->|]; [|apply M2; lia].
        exists mu. split; auto. lra.
      + intros p Hp. destruct (Nat.lt_ge_cases p low); [apply B8; auto|apply Hasg; lia].
      + intros p Hp Hpm Hav.
        assert (rc v i j1 <= rc v i (cl0 @ p)) by (apply Hmin1; auto; apply perm_lt; auto).
        destruct (Nat.lt_ge_cases p low).
        * destruct (M2 p) as (x & E & Hx); auto. exists x. split; auto. lra.
        * exists mu. split; [apply M3; lia|lra].
    - intros k [[[[d pred] cl] up] e] Hk (-> & Hup & Hb & Hm & Hcl & Hd & Hdle & Hag & Hrel).
      pose proof (db_perm _ _ _ _ _ Hb) as HP. pose proof HP as (Hl & _).
      pose proof (db_ld _ _ _ _ _ Hb) as Hld. pose proof (db_lp _ _ _ _ _ Hb) as Hlp.
      assert (Hj : (cl @ k < m)%nat) by (apply perm_lt; auto; lia).
      rewrite (get_ok _ _ 0%nat) by lia. cbn [bind].
      rewrite (get_c n m C HC) by auto. cbn [bind].
      rewrite (get_v m) by auto. cbn [bind].
      rewrite (h_val n m C HC) by auto.
      rewrite (get_ok _ _ NaN) by lia. cbn [bind].
      set (j := cl @ k) in *.
      unfold hh. destruct (av v i j) eqn:Hav.
      2:{ (* column not available for row i *)
        change (nsub extR PInf (Fin h)) with (@PInf R). rewrite lt_Px.
        apply wp_ret. simpl. split; auto. split; [lia|]. split; [auto|]. split; [auto|].
        split; [auto|]. split; [auto|]. split; [auto|]. split; [auto|].
        intros p Hp Hpm Ha. destruct (Nat.eq_dec p k) as [->|]; [unfold j in Hav; congruence|]. apply Hrel; auto; lia. }
      rewrite sub_FF.
      set (v2 := rc v i j - h) in *.
      assert (Hv2 : mu <= v2). { unfold v2, h. specialize (Hmin1 j Hj Hav). lra. }
      assert (Hev2 : v2 = mu + rc v i j - rc v i j1) by (unfold v2, h; lra).
      pose proof (db_val _ _ _ _ _ Hb j Hj) as Hdj.
      destruct (nlt extR (Fin v2) (dat d j)) eqn:Elt.
      2:{ (* no improvement *)
        apply wp_ret. simpl. split; auto. split; [lia|]. split; [auto|]. split; [auto|].
        split; [auto|]. split; [auto|]. split; [auto|]. split; [auto|].
        intros p Hp Hpm Ha. destruct (Nat.eq_dec p k) as [->|]; [|apply Hrel; auto; lia].
        fold j. destruct Hdj as [E|[x E]]; rewrite E in *; [rewrite lt_FP in Elt; discriminate|].
        rewrite lt_FF in Elt. destruct (Rltb_spec v2 x); [discriminate|]. exists x. split; auto. lra. }
      assert (Hdlow : forall y, dle (dat d j) y -> v2 < y).
      { intros y (x & E & Hx). rewrite E, lt_FF in Elt. destruct (Rltb_spec v2 x); [lra|discriminate]. }
      rewrite set_ok by lia. cbn [bind].
      rewrite eq_FF.
      (* d and pred after the assignment d[j] = v2, pred[j] = i *)
      set (d' := upd d j (Fin v2)). set (pred' := upd pred j i).
      assert (Hd'j : dat d' j = Fin v2) by (unfold d'; apply nth_upd_eq; lia).
      assert (Hd'n : forall k, k <> j -> dat d' k = dat d k) by (intros; unfold d'; apply nth_upd_neq; auto).
      assert (Hp'j : nth j pred' 0%nat = i) by (unfold pred'; apply nth_upd_eq; lia).
      assert (Hp'n : forall k, k <> j -> nth k pred' 0%nat = nth k pred 0%nat) by (intros; unfold pred'; apply nth_upd_neq; auto).
      assert (Hup_pos : forall p, (p < up)%nat -> cl @ p <> j).
      { intros p Hp E. unfold j in E. apply (perm_inj m) in E; auto; lia. }
      assert (Hd'dle : forall j y, dle (dat d j) y -> dle (dat d' j) y).
      { intros j' y Hy. destruct (Nat.eq_dec j' j) as [->|]; [|rewrite Hd'n by auto; auto].
        rewrite Hd'j. exists v2. split; auto. apply Hdlow in Hy. lra. }
      assert (HB' : dbase d' pred' cl (S low) up).
      { destruct Hb as [B1 B2 B3 B4 B5 B6 B7 B8 B9]. constructor; auto.
        - unfold d'; rewrite upd_length; auto.
        - unfold pred'; rewrite upd_length; auto.
        - intros k' Hk'. destruct (Nat.eq_dec k' j) as [->|]; [rewrite Hd'j; right; eauto|]. rewrite Hd'n; auto.
        - intros k' Hk'. destruct (Nat.eq_dec k' j) as [->|]; [rewrite Hp'j; auto|]. rewrite Hp'n; auto.
        - intros p x Hp E. destruct (Nat.eq_dec (cl @ p) j) as [Ej|Hne].
          + rewrite Ej in E. rewrite Hd'j in E. inversion E; subst x.
            unfold tight. rewrite Ej, Hp'j. split; auto. right.
            assert (p = k). { apply (perm_inj m cl); auto; lia. } subst p.
            assert (Ej1 : cl @ low = j1) by (rewrite Hcl by lia; auto).
            exists low, mu. split; [lia|]. split; [lia|]. rewrite Ej1. split; auto.
            rewrite Hd'n; [|rewrite <- Ej1; apply Hup_pos; lia].
            split; [|lra]. unfold j1. rewrite Hd by lia. auto.
          + rewrite Hd'n in E by auto. destruct (B9 p x Hp E) as [A B].
            unfold tight. rewrite Hp'n by auto. split; auto.
            destruct B as [B|(q & y & Hq & Hq' & B1' & B2' & B3')]; auto. right.
            exists q, y. repeat split; auto. rewrite Hd'n; auto. apply Hup_pos. lia. }
      assert (HM' : dmin d' cl (S low) up last mu).
      { destruct Hm as [M1 M2 M3 M4]. constructor; auto.
        - intros p Hp. rewrite Hd'n; auto. apply Hup_pos. lia.
        - intros p Hp. rewrite Hd'n; auto. apply Hup_pos. lia.
        - intros p Hp. destruct (Nat.eq_dec (cl @ p) j) as [Ej|Hne].
          + rewrite Ej, Hd'j. apply ele_F; auto.
          + rewrite Hd'n by auto. apply M4; auto. }
      assert (Hd'0 : forall p, (p < up0)%nat -> dat d' (cl0 @ p) = dat d0 (cl0 @ p)).
      { intros p Hp. rewrite Hd'n; auto. rewrite <- Hcl by auto. apply Hup_pos. lia. }
      destruct (Reqb_spec v2 mu) as [Emu|Hnmu].
      + rewrite (get_ok _ _ None) by lia. cbn [bind].
        destruct (col j) as [ij|] eqn:Ecj.
        * (* another column at the minimum *)
          rewrite (get_ok _ _ 0%nat) by lia. cbn [bind].
          rewrite set_ok by lia. cbn [bind].
          rewrite set_ok by (rewrite upd_length; lia). cbn [bind].
          rewrite set_ok by lia. cbn [bind]. apply wp_ret. simpl.
          fold d'. fold pred'. change (upd (upd cl k (cl @ up)) up j) with (swp cl k up).
          assert (Hs : forall p, swp cl k up @ p = if (p =? up)%nat then j else if (p =? k)%nat then cl @ up else cl @ p).
          { intros p. apply (swp_nth m); auto; lia. }
          assert (Hs1 : forall p, (p < up)%nat -> swp cl k up @ p = cl @ p).
          { intros p Hp. rewrite Hs. destruct (Nat.eqb_spec p up), (Nat.eqb_spec p k); auto; lia. }
          assert (HPs : perm_list m (swp cl k up)) by (apply swp_perm; auto; lia).
          assert (Hs2 : forall p, (up <= p < m)%nat -> exists q, (up <= q < m)%nat /\ swp cl k up @ p = cl @ q /\ (p <= k -> q <= k)%nat).
          { intros p Hp. rewrite Hs. destruct (Nat.eqb_spec p up).
            - exists k. split; [lia|]. split; auto.
            - destruct (Nat.eqb_spec p k); [exists up|exists p]; repeat split; auto; lia. }
          split; auto. split; [lia|]. split; [|split; [|split; [|split; [|split; [|split]]]]].
          -- destruct HB' as [B1 B2 B3 B4 B5 B6 B7 B8 B9]. constructor; auto; try lia.
             ++ intros p Hp. rewrite Hs1 by lia. auto.
             ++ intros p x Hp E.
                assert (exists q, swp cl k up @ p = cl @ q /\ (q < m)%nat /\ (p < up -> q = p)%nat /\ (up <= p -> up <= q)%nat) as (q & Eq & Hq & Hq1 & Hq2).
                { destruct (Nat.lt_ge_cases p up).
                  - exists p. rewrite Hs1 by auto. repeat split; auto; lia.
                  - destruct (Hs2 p) as (q & Hq & Eq & _); [lia|]. exists q. repeat split; auto; lia. }
                rewrite Eq in E. destruct (B9 q x Hq E) as [A B]. unfold tight. rewrite Eq. split; auto.
                destruct B as [B|(q' & y & Hq' & Hq'' & B)]; auto. right. exists q', y.
                rewrite Hs1 by lia. split; [|tauto].
                destruct (Nat.lt_ge_cases p up); [rewrite Hq1 in Hq' by auto; auto|lia].
          -- destruct HM' as [M1 M2 M3 M4]. constructor; auto.
             ++ intros p Hp. rewrite Hs1 by lia. auto.
             ++ intros p Hp. destruct (Nat.eq_dec p up) as [->|].
                ** rewrite Hs, Nat.eqb_refl, Hd'j. congruence.
                ** rewrite Hs1 by lia. apply M3. lia.
             ++ intros p Hp. destruct (Hs2 p) as (q & Hq & Eq & _); [lia|]. rewrite Eq. apply M4. auto.
          -- intros p Hp. rewrite Hs1 by lia. auto.
          -- auto.
          -- intros. apply Hd'dle. auto.
          -- intros p Hp. destruct (Nat.eq_dec p up) as [->|].
             ++ rewrite Hs, Nat.eqb_refl. eauto.
             ++ rewrite Hs1 by lia. apply Hag. lia.
          -- intros p Hp Hpm Ha. 
             assert (exists q, swp cl k up @ p = cl @ q /\ (q < S k)%nat) as (q & Eq & Hq).
             { destruct (Nat.lt_ge_cases p up).
               - exists p. rewrite Hs1 by auto. split; auto; lia.
               - destruct (Hs2 p) as (q & Hq & Eq & X); [lia|]. exists q. split; auto; lia. }
             rewrite Eq in *. destruct (Nat.eq_dec q k) as [->|].
             ++ fold j. rewrite Hd'j. exists v2. split; auto. lra.
             ++ apply Hd'dle. apply Hrel; auto; lia.
        * (* an unassigned column: done *)
          apply wp_ret. simpl. exists j. split; auto.
          fold pred'.
          destruct (make_cert d' pred' cl (S low) up last mu j k) as [Hce Hpo]; auto; try lia.
          { intros p Hp. pose proof (dm_last _ _ _ _ _ _ HM) as Hlast.
            assert (Hpl : (p < low)%nat) by lia.
            unfold relaxed. rewrite Hcl by lia. intros i' x Ei' Ex k' Hk' Hak'.
            rewrite Hd'0 in Ex by lia. apply Hd'dle, Hdle. apply (HR p Hpl i' x); auto. }
          { congruence. }
          exists (ddf d' mu), mu, (S low). simpl. split; auto. split; auto. split; auto.
          destruct Hpo as (P1 & P2 & P3). split; auto. split; auto.
          intros p Hp. rewrite <- P2 by auto. rewrite Hd'n; auto. apply Hup_pos.
          pose proof (dm_last _ _ _ _ _ _ HM). lia.
      + rewrite set_ok by lia. cbn [bind]. apply wp_ret. simpl. fold d' pred'.
        split; auto. split; [lia|]. split; [auto|]. split; [auto|].
        split; [auto|]. split; [auto|]. split; [intros; apply Hd'dle; auto|]. split; [auto|].
        intros p Hp Hpm Ha. destruct (Nat.eq_dec p k) as [->|].
        * fold j. rewrite Hd'j. exists v2. split; auto. lra.
        * apply Hd'dle, Hrel; auto; lia. }
  intros [[[[d pred] cl] up] e] [HJ|HI].
  - destruct HJ as (e' & -> & Hfnd). apply wp_ret. unfold step_post. simpl. exact Hfnd.
  - destruct HI as (-> & Hup & Hb & Hm & Hcl & Hd & Hdle & Hag & Hrel).
    apply wp_ret. unfold step_post. simpl. split; auto.
    replace (up0 + (m - up0))%nat with m in * by lia.
    constructor; simpl; auto.
    + intros p Hp. unfold relaxed. rewrite Hcl by lia.
      destruct (Nat.eq_dec p low) as [->|].
      * intros i' x Ei' Ex k Hk Hak. fold j1 in Ei', Ex |- *.
        assert (i' = i) by congruence. subst i'.
        assert (x = mu). { unfold j1 in Ex. rewrite Hd in Ex by lia. fold j1 in Ex. congruence. } subst x.
        destruct (perm_surj m cl k (db_perm _ _ _ _ _ Hb) Hk) as (q & Hq & <-). apply Hrel; auto.
      * intros i' x Ei' Ex k Hk Hak. rewrite Hd in Ex by lia. apply Hdle. apply (HR p) with (i := i'); auto. lia.
    + right. eauto.
    + intros p Hp. apply Hag. lia.
Qed.

Lemma dij_step_spec F st : dinv st -> wp F (dij_step extR m C v colsol st) (step_post st).
Proof.
  intros HI. destruct HI as [HB HR HE HM HS]. unfold dij_step.
  destruct (Nat.eqb_spec (p_up st) (p_low st)) as [Eq|Hne].
  - apply wp_bind. apply wp_bind.
    assert (Hready : forall p, (p < p_low st)%nat -> exists x, dat (p_d st) (p_collist st @ p) = Fin x).
    { intros p Hp. destruct HM as [H0|(mu & _ & HM)]; [lia|].
      destruct (dm_ready _ _ _ _ _ _ HM p Hp) as (x & ? & _); eauto. }
    eapply wp_conseq; [apply (find_min_spec F _ _ _ _ _ HB Eq)|]; auto.
    + eapply exists_todo; eauto.
    + intros p x Hp Ex q Hq. destruct HM as [H0|(mu & _ & HM)]; [lia|].
      destruct (dm_ready _ _ _ _ _ _ HM p Hp) as (x' & E' & Hx').
      assert (x' = x) by congruence. subst x'.
      assert (ele (Fin mu) (dat (p_d st) (p_collist st @ q))) by (apply (dm_todo _ _ _ _ _ _ HM); lia).
      eapply ele_trans with (Fin mu); auto; try (right; eexists; reflexivity).
      * apply (db_val _ _ _ _ _ HB). apply perm_lt; [apply HB|lia].
      * apply ele_F; auto.
    + intros [[cl' up'] mn] (mu & -> & HB' & Hlu & HM' & Hpre).
      apply wp_bind. eapply wp_conseq; [apply (find_unassigned_spec F cl' (p_low st) up')|].
      { apply HB'. }
      { apply HB'. }
      intros [e|] He.
      * simpl. unfold step_post. simpl.
        destruct He as (p & Hp & Ep & Ec).
        destruct (make_cert (p_d st) (p_pred st) cl' (p_low st) up' (p_low st) mu e p) as [Hce Hpo]; auto.
        -- intros q Hq i x. rewrite Hpre by auto. apply HR; auto.
        -- pose proof (db_up _ _ _ _ _ HB'). lia.
        -- rewrite <- Ep. apply (dm_scan _ _ _ _ _ _ HM'). auto.
        -- exists (ddf (p_d st) mu), mu, (p_low st). simpl. split; auto. split; auto. split; auto. apply HB.
      * apply wp_ret. simpl.
        eapply wp_conseq.
        { apply scan_spec; simpl; auto.
          - intros q Hq i x. rewrite Hpre by auto. apply HR; auto.
          - eauto. }
        intros st' H. exact H.
  - cbn [bind]. rewrite HE. apply scan_spec; auto.
    + destruct HM as [H0|HM]; auto. pose proof (db_up _ _ _ _ _ HB). lia.
    + pose proof (db_up _ _ _ _ _ HB). lia.
Qed.

Lemma dij_loop_spec F fuel st :
  dinv st -> (m < fuel + p_low st)%nat ->
  wp F (dij_loop extR fuel m C v colsol st) (fun r => found (fst r) (snd r)).
Proof.
  revert st; induction fuel as [|fuel IH]; intros st HI Hfu.
  - exfalso. pose proof (db_up _ _ _ _ _ (dn_base _ HI)). lia.
  - simpl. apply wp_bind. eapply wp_conseq; [apply dij_step_spec; auto|].
    intros st' Hp. unfold step_post in Hp. destruct (p_end st') as [e|] eqn:E.
    + apply wp_ret. exact Hp.
    + destruct Hp as [HI' El]. apply IH; auto. lia.
Qed.

(** Distances at the start. *)
Lemma init_spec F :
  wp F (for_loop m 0
         (fun j d =>
            c <- get C (f * m + j);;
            vj <- get v j;;
            Ok (d ++ [nsub extR c vj])) [])
    (fun d => d = map (hh m C v f) (seq 0 m)).
Proof.
  eapply wp_conseq.
  { apply (wp_for F m 0 _ (fun k d => d = map (hh m C v f) (seq 0 k))); auto.
    intros k d Hk ->. rewrite (get_c n m C HC) by (auto; lia). cbn [bind].
    rewrite (get_v m) by (auto; lia). cbn [bind].
    rewrite (h_val n m C HC) by (auto; lia). apply wp_ret.
    rewrite seq_S, map_app. reflexivity. }
  intros d H. exact H.
Qed.

Lemma init_inv :
  dinv (mkDij (map (hh m C v f) (seq 0 m)) (repeat f m) (seq 0 m) 0 0 0 (n0 extR) None).
Proof.
  assert (Hn : forall k, (k < m)%nat -> dat (map (hh m C v f) (seq 0 m)) k = hh m C v f k).
  { intros k Hk. rewrite nth_indep with (d' := hh m C v f 0) by (rewrite map_length, seq_length; auto).
    rewrite map_nth, seq_nth; auto. }
  assert (Hr : forall k, (k < m)%nat -> nth k (repeat f m) 0%nat = f).
  { intros k Hk. rewrite nth_indep with (d' := f) by (rewrite repeat_length; auto). apply nth_repeat. }
  constructor; simpl; auto; try (intros; lia).
  constructor; simpl.
  - rewrite map_length, seq_length; auto.
  - apply repeat_length.
  - split; [apply seq_length|]. split; [apply seq_NoDup|]. intros x Hx; apply in_seq in Hx; lia.
  - lia.
  - intros k Hk. rewrite Hn by auto. unfold hh, isup. destruct (av v f k); eauto.
  - intros k Hk. rewrite Hr; auto.
  - intros k Hk Ha. rewrite Hn by auto. unfold hh. rewrite Ha. exists (rc v f k). split; auto. lra.
  - intros; lia.
  - intros p x Hp E. rewrite seq_nth in E by auto. simpl in E. rewrite Hn in E by auto.
    unfold tight. rewrite seq_nth by auto. simpl. rewrite Hr by auto.
    unfold hh in E. destruct (av v f p) eqn:Ea; [|discriminate]. inversion E. auto.
Qed.

(** The price update. *)
Definition new_v (dd : nat -> R) (mu : R) (v' : list (ext R)) : Prop :=
  length v' = m /\
  forall k, (k < m)%nat ->
    nth k v' NaN = if lk v k then NInf else Fin (vr v k + dd k - mu).

Lemma prices_spec F st e dd mu low :
  p_min st = Fin mu -> cert dd (p_pred st) (p_collist st) low e mu ->
  prices_ok (p_d st) (p_collist st) (p_last st) mu dd -> length (p_d st) = m ->
  wp F (update_prices extR v st) (new_v dd mu).
Proof.
  intros Em Hc (Hlast & Hin & Hout) Hld. unfold update_prices.
  pose proof (ce_perm _ _ _ _ _ _ Hc) as HP. pose proof HP as (Hl & _).
  eapply wp_conseq.
  { apply (wp_for F (p_last st) 0 _ (fun t v' =>
      length v' = m /\
      forall p, (p < m)%nat -> nth (p_collist st @ p) v' NaN =
        if (p <? t)%nat then (if lk v (p_collist st @ p) then NInf
             else Fin (vr v (p_collist st @ p) + dd (p_collist st @ p) - mu))
        else nth (p_collist st @ p) v NaN)).
    - split; [apply Hv|]. intros p Hp. destruct (Nat.ltb_spec p 0); auto; lia.
    - intros t v' Ht (Hlv & Hv').
      assert (Hcm : (p_collist st @ t < m)%nat) by (apply perm_lt; auto; lia).
      rewrite (get_ok _ _ 0%nat) by lia. cbn [bind].
      rewrite (get_ok _ _ NaN) by lia. cbn [bind].
      rewrite (get_ok _ _ NaN) by lia. cbn [bind].
      rewrite Hv' by lia. destruct (Nat.ltb_spec t t); [lia|].
      rewrite Hin by lia. rewrite Em.
      apply wp_set; [lia|]. split; [rewrite upd_length; auto|].
      intros p Hp. rewrite nth_upd by lia.
      destruct (Nat.eqb_spec (p_collist st @ t) (p_collist st @ p)) as [E|Hne].
      + assert (t = p) by (apply (perm_inj m (p_collist st)); auto; lia). subst p.
        destruct (Nat.ltb_spec t (S t)); [|lia].
        destruct (v_cases m v _ Hv Hcm) as [(-> & -> & _)|(-> & -> & _)]; auto.
      + rewrite Hv' by auto.
        destruct (Nat.ltb_spec p t), (Nat.ltb_spec p (S t)); auto; try lia.
        assert (p = t) by lia. subst; congruence. }
  simpl. intros v' (Hlv & Hv'). split; auto. intros k Hk.
  destruct (perm_surj _ _ _ HP Hk) as (p & Hp & <-). rewrite Hv' by auto.
  destruct (Nat.ltb_spec p (p_last st)); auto.
  rewrite Hout by lia.
  destruct (v_cases m v _ Hv Hk) as [(-> & -> & _)|(-> & -> & _)]; auto.
  f_equal. lra.
Qed.

(** The new prices keep every assigned pair optimal and make the path tight. *)
Section NewV.
Variables (dd : nat -> R) (pred cl : list nat) (low e : nat) (mu : R) (v' : list (ext R)).
Hypothesis Hcert : cert dd pred cl low e mu.
Hypothesis Hnew : new_v dd mu v'.

Lemma nv_lk k : (k < m)%nat -> lk v' k = lk v k.
Proof.
  intros Hk. destruct Hnew as [_ H]. unfold lk at 1. rewrite H by auto.
  destruct (lk v k); auto.
Qed.

Lemma nv_vr k : (k < m)%nat -> lk v k = false -> vr v' k = vr v k + dd k - mu.
Proof. intros Hk E. destruct Hnew as [_ H]. unfold vr at 1. rewrite H, E by auto. auto. Qed.

Lemma nv_av i k : (k < m)%nat -> av v' i k = av v i k.
Proof. intros Hk. unfold LapBase.av. rewrite nv_lk; auto. Qed.

Lemma nv_rc i k : (k < m)%nat -> lk v k = false -> rc v' i k = rc v i k - dd k + mu.
Proof. intros Hk E. unfold LapBase.rc. rewrite nv_vr by auto. lra. Qed.

Lemma nv_vok : vok v'.
Proof.
  destruct Hnew as [Hl H]. split; auto. intros j Hj. rewrite H by auto.
  destruct (v_cases m v j Hv Hj) as [(_ & -> & X)|(_ & -> & _)]; auto.
  right. eexists. split; eauto. pose proof (ce_le _ _ _ _ _ _ Hcert j Hj). lra.
Qed.

Lemma nv_pair j i : (j < m)%nat -> col j = Some i -> pairok v' i j.
Proof.
  intros Hj Ej. pose proof (co_pair _ _ _ _ _ _ Hcore _ _ Hj Ej) as P.
  constructor.
  - apply P.
  - intros Hl k Hk Ha. rewrite nv_lk in Hl by auto. rewrite nv_av in Ha by auto.
    destruct (av_split _ _ _ _ _ Ha) as [_ Hlk].
    rewrite !nv_rc by auto.
    pose proof (ce_rel _ _ _ _ _ _ Hcert j i k Hj Hk Ej Hl Ha). lra.
  - intros Hl k Hk Hne Hfin. rewrite nv_lk in Hl |- * by auto. apply (po_alt _ _ _ _ _ _ P); auto.
  - intros Hl. rewrite nv_lk in Hl by auto. apply (po_forced _ _ _ _ _ _ P); auto.
Qed.

(** A tight step gives a valid new pair. *)
Lemma nv_step bound k : (k < m)%nat -> (bound <= low)%nat -> step_to pred cl dd bound k ->
  pairok v' (nth k pred 0%nat) k.
Proof.
  intros Hk Hb [Ha Hs]. destruct (av_split _ _ _ _ _ Ha) as [Hfin Hlk].
  constructor; auto.
  - intros _ k' Hk' Ha'. rewrite nv_av in Ha' by auto.
    destruct (av_split _ _ _ _ _ Ha') as [_ Hlk'].
    rewrite !nv_rc by auto.
    destruct Hs as [[Ei Ed]|(q & Hq & Ec & Ed)].
    + rewrite Ei in *. pose proof (ce_src _ _ _ _ _ _ Hcert k' Hk' Ha'). lra.
    + assert (Hcq : (cl @ q < m)%nat).
      { apply perm_lt; [apply Hcert|]. pose proof (ce_low _ _ _ _ _ _ Hcert). lia. }
      assert (lk v (cl @ q) = false).
      { destruct (ce_path _ _ _ _ _ _ Hcert q) as [X _]; [lia|].
        apply av_split in X. tauto. }
      pose proof (ce_rel _ _ _ _ _ _ Hcert _ _ k' Hcq Hk' Ec H Ha'). lra.
  - rewrite nv_lk by auto. congruence.
  - rewrite nv_lk by auto. congruence.
Qed.

(** Invariant of the path flip: column [g] is up for reassignment. *)
Record flip_inv (rs cs : list (option nat)) (g bound : nat) : Prop := {
  fi_lr : length rs = n;
  fi_lc : length cs = m;
  fi_g : (g < m)%nat;
  fi_bound : (bound <= low)%nat;
  fi_step : step_to pred cl dd bound g;
  fi_a1 : forall j i, (j < m)%nat -> j <> g -> nth j cs None = Some i ->
            (i < n)%nat /\ nth i rs None = Some j /\ pairok v' i j;
  fi_rows : forall i, (exists j, (j < m)%nat /\ j <> g /\ nth j cs None = Some i) <-> assigned colsol i;
  fi_none : forall j, (j < m)%nat -> j <> g -> nth j cs None = None -> col j = None;
  fi_old : forall p, (p < bound)%nat -> nth (cl @ p) cs None = col (cl @ p);
  fi_gpos : forall p, (p < bound)%nat -> cl @ p <> g }.

Lemma flip_spec F fuel rs cs g bound :
  flip_inv rs cs g bound -> (bound < fuel)%nat ->
  wp F (flip_path fuel pred f g rs cs)
    (fun r => core (fst r) (snd r) v' /\
       forall i, assigned (snd r) i <-> (i = f \/ assigned colsol i)).
Proof.
  revert rs cs g bound. induction fuel as [|fuel IH]; intros rs cs g bound HI Hfu; [lia|].
  destruct HI as [H1 H2 H3 H4 H5 H6 H7 H8 H9 H10]. simpl.
  rewrite (get_ok _ _ 0%nat) by (rewrite (ce_lp _ _ _ _ _ _ Hcert); auto). cbn [bind].
  rewrite set_ok by lia. cbn [bind].
  assert (Hi : (nth g pred 0 < n)%nat) by (apply (ce_pred _ _ _ _ _ _ Hcert); auto).
  rewrite (get_ok _ _ None) by lia. cbn [bind].
  rewrite set_ok by lia. cbn [bind].
  pose proof (nv_step bound g H3 H4 H5) as Hpair.
  set (i := nth g pred 0%nat) in *.
  destruct (Nat.eqb_spec i f) as [Eif|Hif].
  - (* reached the free row *)
    apply wp_ret. simpl.
    assert (Hfno : forall j, (j < m)%nat -> j <> g -> nth j cs None <> Some f).
    { intros j Hj Hne E. apply Hfree. apply H7. eauto. }
    split.
    + constructor.
      * rewrite upd_length; auto.
      * rewrite upd_length; auto.
      * apply nv_vok.
      * intros j i' Hj E. destruct (Nat.eq_dec g j) as [<-|Hne].
        -- rewrite nth_upd_eq in E by lia. inversion E; subst i'. split; auto. apply nth_upd_eq; lia.
        -- rewrite nth_upd_neq in E by auto. destruct (H6 j i' Hj) as (A & B & _); auto. split; auto.
           rewrite nth_upd_neq; auto. intros X. apply (Hfno j); auto. congruence.
      * intros j Hj E. destruct (Nat.eq_dec g j) as [<-|Hne].
        -- rewrite nth_upd_eq in E by lia. discriminate.
        -- rewrite nth_upd_neq in E by auto. pose proof (H8 j Hj ltac:(auto) E) as Ec.
           destruct Hnew as [_ Hn]. rewrite Hn by auto.
           pose proof (co_a3 _ _ _ _ _ _ Hcore _ Hj Ec) as Ev.
           assert (lk v j = false) as -> by (unfold lk; rewrite Ev; auto).
           assert (vr v j = 0) as -> by (unfold vr; rewrite Ev; auto).
           destruct (ce_dd _ _ _ _ _ _ Hcert j Hj) as [->|(p & Hp & Ep)]; [f_equal; lra|].
           destruct (ce_asg _ _ _ _ _ _ Hcert p Hp) as [? X]. congruence.
      * intros j i' Hj E. destruct (Nat.eq_dec g j) as [<-|Hne].
        -- rewrite nth_upd_eq in E by lia. inversion E; subst i'. auto.
        -- rewrite nth_upd_neq in E by auto. apply H6; auto.
    + intros i'. unfold LapBase.assigned at 1. split.
      * intros (j & Hj & E). destruct (Nat.eq_dec g j) as [<-|Hne].
        -- rewrite nth_upd_eq in E by lia. left; congruence.
        -- rewrite nth_upd_neq in E by auto. right. apply H7. exists j; auto.
      * intros [->|X].
        -- exists g. split; auto. rewrite nth_upd_eq by lia. congruence.
        -- apply H7 in X. destruct X as (j & Hj & Hne & E). exists j. split; auto. rewrite nth_upd_neq; auto.
  - (* continue with the column the row had *)
    destruct H5 as [Hav Hs]. fold i in Hav, Hs.
    destruct Hs as [[X _]|(q & Hq & Ec & Ed)]; [congruence|].
    assert (Hcq : (cl @ q < m)%nat).
    { apply perm_lt; [apply Hcert|]. pose proof (ce_low _ _ _ _ _ _ Hcert). lia. }
    assert (Hqg : cl @ q <> g) by (apply H10; auto).
    assert (Ecs : nth (cl @ q) cs None = Some i) by (rewrite H9; auto).
    destruct (H6 _ _ Hcq Hqg Ecs) as (_ & Ers & _).
    rewrite Ers. cbn [idx bind].
    apply IH with q; [|lia].
    constructor.
    + rewrite upd_length; auto.
    + rewrite upd_length; auto.
    + auto.
    + lia.
    + apply (ce_path _ _ _ _ _ _ Hcert). lia.
    + intros j i' Hj Hne E. destruct (Nat.eq_dec g j) as [<-|Hng].
      * rewrite nth_upd_eq in E by lia. inversion E; subst i'. split; auto. split; auto.
        apply nth_upd_eq; lia.
      * rewrite nth_upd_neq in E by auto. destruct (H6 j i' Hj) as (A & B & D); auto.
        split; auto. split; auto. rewrite nth_upd_neq; auto.
        intros X. rewrite <- X, Ers in B. congruence.
    + intros i'. rewrite <- H7. split.
      * intros (j & Hj & Hne & E). destruct (Nat.eq_dec g j) as [<-|Hng].
        -- rewrite nth_upd_eq in E by lia. inversion E; subst i'. exists (cl @ q). auto.
        -- rewrite nth_upd_neq in E by auto. exists j; auto.
      * intros (j & Hj & Hne & E). destruct (Nat.eq_dec j (cl @ q)) as [->|Hng].
        -- exists g. split; auto. split; auto. rewrite nth_upd_eq by lia. congruence.
        -- exists j. split; auto. split; auto. rewrite nth_upd_neq; auto.
    + intros j Hj Hne E. destruct (Nat.eq_dec g j) as [<-|Hng].
      * rewrite nth_upd_eq in E by lia. discriminate.
      * rewrite nth_upd_neq in E by auto. apply H8; auto.
    + intros p Hp. rewrite nth_upd_neq; [apply H9; lia|]. intros X. apply (H10 p); auto. lia.
    + intros p Hp E. apply (perm_inj m) in E; [lia|apply Hcert| |]; pose proof (ce_low _ _ _ _ _ _ Hcert); lia.
Qed.

Lemma flip_start : flip_inv rowsol colsol e low.
Proof.
  destruct Hcert as [E1 E2 E3 E4 E5 E6 E7 E8 E9 E10 E11 E12 E13 E14].
  constructor; auto.
  - intros j i Hj Hne E. destruct (co_a1 _ _ _ _ _ _ Hcore _ _ Hj E) as [A B].
    split; auto. split; auto. apply nv_pair; auto.
  - intros i. unfold LapBase.assigned. split.
    + intros (j & Hj & _ & E). eauto.
    + intros (j & Hj & E). exists j. split; auto. split; auto. congruence.
  - intros p Hp E. destruct (E9 p Hp) as [i X]. congruence.
Qed.
End NewV.

Lemma augment_spec F :
  wp F (augment extR n m C f (rowsol, colsol, v))
    (fun r => let '(rs, cs, v') := r in
       core rs cs v' /\ forall i, assigned cs i <-> (i = f \/ assigned colsol i)).
Proof.
  unfold augment. apply wp_bind. eapply wp_conseq; [apply init_spec|].
  intros d ->. apply wp_bind. eapply wp_conseq.
  { apply dij_loop_spec; [apply init_inv|]. simpl. lia. }
  intros [st e] (dd & mu & low & Em & Hc & Hp & Hld). cbn [fst snd] in *.
  apply wp_bind. eapply wp_conseq; [eapply prices_spec; eauto|].
  intros v' Hnew. apply wp_bind. eapply wp_conseq.
  { eapply (flip_spec dd (p_pred st) (p_collist st) low e mu v' Hc Hnew F _ _ _ _ low).
    { eapply flip_start; eauto. }
    pose proof (ce_low _ _ _ _ _ _ Hc). lia. }
  intros [rs cs] H. apply wp_ret. exact H.
Qed.
End Dij.
