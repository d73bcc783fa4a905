(** The augmenting row reduction terminates, for real costs.  An endless run
    would lower prices for ever; the prices converge, and near the limit every
    new price is a copy of another price's distance to its limit, so only
    finitely many values remain. *)
From Coq Require Import List Arith Bool Lia Reals Lra Classical.
Import ListNotations.
From Verif Require Import Res Scalar Lap LapBase LapArr.
Open Scope R_scope.

Lemma fin_choice {A} (m : nat) (P : nat -> A -> Prop) (a0 : A) :
  (forall j, (j < m)%nat -> exists y, P j y) ->
  exists f, forall j, (j < m)%nat -> P j (f j).
Proof.
  induction m as [|m IH]; intros H.
  - exists (fun _ => a0). intros; lia.
  - destruct IH as [f Hf]; [intros; apply H; lia|].
    destruct (H m) as [y Hy]; [lia|].
    exists (fun j => if (j =? m)%nat then y else f j). intros j Hj.
    destruct (Nat.eqb_spec j m) as [->|]; auto. apply Hf; lia.
Qed.

Lemma classic_filter (P : nat -> Prop) (l : list nat) :
  NoDup l -> exists l', NoDup l' /\ forall x, In x l' <-> In x l /\ P x.
Proof.
  induction l as [|a l IH]; intros H.
  - exists []. split; [constructor|]. simpl. tauto.
  - inversion H; subst. destruct IH as (l' & Hn & Hl'); auto.
    destruct (classic (P a)).
    + exists (a :: l'). split.
      * constructor; auto. rewrite Hl'. tauto.
      * intros x. simpl. rewrite Hl'. split; [|tauto].
        intros [->|[? ?]]; auto.
    + exists l'. split; auto. intros x. simpl. rewrite Hl'. split; [tauto|].
      intros [[->|?] ?]; tauto.
Qed.

Lemma fin_bound (m : nat) (f : nat -> R) :
  exists B, 0 <= B /\ forall j, (j < m)%nat -> Rabs (f j) <= B.
Proof.
  induction m as [|m (B & HB & H)].
  - exists 0. split; [lra|]. intros; lia.
  - exists (Rmax B (Rabs (f m))). split; [eapply Rle_trans; [exact HB|apply Rmax_l]|].
    intros j Hj. destruct (Nat.eq_dec j m) as [->|]; [apply Rmax_r|].
    eapply Rle_trans; [apply H; lia|apply Rmax_l].
Qed.

Lemma fin_bound2 (n m : nat) (f : nat -> nat -> R) :
  exists B, 0 <= B /\ forall i j, (i < n)%nat -> (j < m)%nat -> Rabs (f i j) <= B.
Proof.
  induction n as [|n (B & HB & H)].
  - exists 0. split; [lra|]. intros; lia.
  - destruct (fin_bound m (f n)) as (B' & HB' & H').
    exists (Rmax B B'). split; [eapply Rle_trans; [exact HB|apply Rmax_l]|].
    intros i j Hi Hj. destruct (Nat.eq_dec i n) as [->|].
    + eapply Rle_trans; [apply H'; auto|apply Rmax_r].
    + eapply Rle_trans; [apply H; auto; lia|apply Rmax_l].
Qed.

Lemma fin_time (l : list nat) (Q : nat -> nat -> Prop) :
  (forall j t t', Q j t -> (t <= t')%nat -> Q j t') ->
  (forall j, In j l -> exists t, Q j t) -> exists t, forall j, In j l -> Q j t.
Proof.
  intros Hm. induction l as [|a l IH]; intros H.
  - exists 0%nat. intros j [].
  - destruct IH as [t Ht]; [intros; apply H; simpl; auto|].
    destruct (H a) as [t' Ht']; [simpl; auto|].
    exists (Nat.max t t'). intros j [<-|Hj].
    + eapply Hm; eauto; lia.
    + eapply Hm; [apply Ht; auto|lia].
Qed.

Lemma min_abs (l : list R) : exists eps, 0 < eps /\ forall x, In x l -> x <> 0 -> eps <= Rabs x.
Proof.
  induction l as [|a l (e & He & H)].
  - exists 1. split; [lra|]. intros x [].
  - destruct (Req_EM_T a 0) as [->|Ha].
    + exists e. split; auto. intros x [<-|Hx] Hn; [lra|auto].
    + exists (Rmin e (Rabs a)). split.
      * apply Rmin_glb_lt; auto. apply Rabs_pos_lt; auto.
      * intros x [<-|Hx] Hn; [apply Rmin_r|].
        eapply Rle_trans; [apply Rmin_l|auto].
Qed.

Lemma decr_limit (x : nat -> R) (B : R) :
  (forall t, x (S t) <= x t) -> (forall t, B <= x t) ->
  exists l, (forall t, l <= x t) /\ forall eps, 0 < eps -> exists t, x t < l + eps.
Proof.
  intros Hd Hb.
  destruct (completeness (fun y => exists t, y = - x t)) as [u [Hu1 Hu2]].
  - exists (- B). intros y [t ->]. specialize (Hb t). lra.
  - exists (- x 0%nat). eauto.
  - exists (- u). split.
    + intros t. assert (- x t <= u) by (apply Hu1; eauto). lra.
    + intros eps He. apply NNPP. intros Hn.
      assert (u <= u - eps); [|lra]. apply Hu2. intros y [t ->].
      destruct (Rlt_le_dec (x t) (- u + eps)); [exfalso; eauto|lra].
Qed.

Definition rank (E : list R) (y : R) : nat := length (filter (fun z => Rltb z y) E).

Lemma rank_lt E y y' : In y' E -> y' < y -> (rank E y' < rank E y)%nat.
Proof.
  unfold rank. induction E as [|a E IH]; intros Hin Hlt; [destruct Hin|]. simpl.
  assert (Hle : (length (filter (fun z => Rltb z y') E) <= length (filter (fun z => Rltb z y) E))%nat).
  { clear -Hlt. induction E as [|b E IH]; simpl; auto.
    destruct (Rltb_spec b y'), (Rltb_spec b y); simpl; lia || lra. }
  destruct Hin as [->|Hin].
  - destruct (Rltb_spec y' y'), (Rltb_spec y' y); simpl; try lra. lia.
  - specialize (IH Hin Hlt). destruct (Rltb_spec a y'), (Rltb_spec a y); simpl; lia || lra.
Qed.

Fixpoint sumn (f : nat -> nat) (m : nat) : nat :=
  match m with O => 0 | S m => sumn f m + f m end.

Lemma sumn_le f g m : (forall j, (j < m)%nat -> f j <= g j)%nat -> (sumn f m <= sumn g m)%nat.
Proof.
  induction m; intros H; simpl; auto.
  assert (f m <= g m)%nat by (apply H; lia).
  assert (sumn f m <= sumn g m)%nat by (apply IHm; intros; apply H; lia). lia.
Qed.

Lemma sumn_lt f g m j : (j < m)%nat -> (forall j, (j < m)%nat -> f j <= g j)%nat ->
  (f j < g j)%nat -> (sumn f m < sumn g m)%nat.
Proof.
  induction m; intros Hj H Hlt; simpl; [lia|].
  assert (f m <= g m)%nat by (apply H; lia).
  destruct (Nat.eq_dec j m) as [->|].
  - assert (sumn f m <= sumn g m)%nat by (apply sumn_le; intros; apply H; lia). lia.
  - assert (sumn f m < sumn g m)%nat by (apply IHm; auto; try lia; intros; apply H; lia). lia.
Qed.

Lemma no_descent (g : nat -> nat) : (forall t, g (S t) < g t)%nat -> False.
Proof.
  intros H. assert (forall k t, (g t < k)%nat -> False) as X.
  { induction k; intros t Ht; [lia|]. apply (IHk (S t)). specialize (H t). lia. }
  apply (X (S (g 0%nat)) 0%nat). lia.
Qed.

Section Term.
Variables (n m : nat) (C : list (ext R)).
Hypothesis HC : wfC n m C.
Hypothesis Hhall : hall n m C.
Variable simd : bool.

Notation arrinv := (arrinv n m C).
Notation lowering := (lowering n m C).
Notation av := (av m C).
Notation rc := (rc m C).

(** No endless sequence of lowering steps. *)
Section Chain.
Variables (prev : nat) (st : nat -> arr (T := ext R)).
Hypothesis Hinv : forall t, arrinv prev (st t).
Hypothesis Hlow : forall t, lowering (st t) (st (S t)).

Let x (t j : nat) : R := vr (a_v (st t)) j.

Lemma chain_step t : exists i j1 j2, (i < n)%nat /\ ~ assigned m (a_colsol (st t)) i /\
    (j1 < m)%nat /\ (j2 < m)%nat /\
    lk (a_v (st t)) j1 = false /\
    (forall j, (j < m)%nat -> av (a_v (st t)) i j = true ->
       rc (a_v (st t)) i j1 <= rc (a_v (st t)) i j) /\
    x (S t) j1 = cr m C i j1 - cr m C i j2 + x t j2 /\
    x (S t) j1 < x t j1 /\
    (forall j, j <> j1 -> x (S t) j = x t j) /\
    (forall j, lk (a_v (st (S t))) j = lk (a_v (st t)) j).
Proof.
  destruct (Hlow t) as (i & j1 & j2 & Hi & Hna & Hj1 & Hj2 & A1 & A2 & Hmin & Hlt & Ev).
  destruct (av_split _ _ _ _ _ A1) as [_ L1].
  assert (Hlv : length (a_v (st t)) = m) by apply (co_v _ _ _ _ _ _ (ai_core _ _ _ _ _ (Hinv t))).
  assert (E1 : nth j1 (a_v (st (S t))) NaN = Fin (cr m C i j1 - rc (a_v (st t)) i j2)).
  { rewrite Ev. apply nth_upd_eq. lia. }
  assert (En : forall j, j <> j1 -> nth j (a_v (st (S t))) NaN = nth j (a_v (st t)) NaN).
  { intros j Hj. rewrite Ev. apply nth_upd_neq. auto. }
  exists i, j1, j2. repeat split; auto.
  - unfold x at 1, vr. rewrite E1. unfold LapBase.rc, x. lra.
  - unfold x at 1, vr. rewrite E1. unfold LapBase.rc in *. unfold x. lra.
  - intros j Hj. unfold x, vr. rewrite En; auto.
  - intros j. destruct (Nat.eq_dec j j1) as [->|].
    + rewrite L1. unfold lk. rewrite E1. auto.
    + unfold lk. rewrite En; auto.
Qed.

Lemma chain_decr t j : x (S t) j <= x t j.
Proof.
  destruct (chain_step t) as (i & j1 & j2 & _ & _ & _ & _ & _ & _ & _ & Hlt & Hsame & _).
  destruct (Nat.eq_dec j j1) as [->|]; [lra|]. rewrite Hsame; auto. lra.
Qed.

Lemma chain_decr' t t' j : (t <= t')%nat -> x t' j <= x t j.
Proof.
  induction 1; [lra|]. eapply Rle_trans; [apply chain_decr|auto].
Qed.

Lemma chain_lk t j : lk (a_v (st t)) j = lk (a_v (st 0%nat)) j.
Proof.
  induction t; auto.
  destruct (chain_step t) as (i & j1 & j2 & _ & _ & _ & _ & _ & _ & _ & _ & _ & H).
  rewrite H. auto.
Qed.

Lemma chain_bounded : exists B, forall t j, (j < m)%nat -> B <= x t j.
Proof.
  set (unb := fun j => forall B, exists t, x t j < B).
  destruct (classic_filter unb (seq 0 m) (seq_NoDup m 0)) as (L & HndL & HL).
  (* bound for the columns that are bounded *)
  assert (exists K, 0 <= K /\ forall j t, (j < m)%nat -> ~ In j L -> - K <= x t j) as (K & HK & HKb).
  { destruct (fin_choice m (fun j K => ~ In j L -> forall t, K <= x t j) 0) as [kf Hkf].
    - intros j Hj. destruct (classic (unb j)) as [Hu|Hu].
      + exists 0. intros Hn. exfalso. apply Hn. apply HL. split; auto. apply in_seq; lia.
      + apply not_all_ex_not in Hu. destruct Hu as [B HB]. exists B. intros _ t.
        destruct (Rlt_le_dec (x t j) B); auto. exfalso; eauto.
    - destruct (fin_bound m kf) as (K & HK & HKf). exists K. split; auto.
      intros j t Hj Hn. specialize (Hkf j Hj Hn t). specialize (HKf j Hj).
      apply Rabs_le_inv in HKf || (unfold Rabs in HKf; destruct (Rcase_abs (kf j))). all: lra. }
  destruct (fin_bound2 n m (cr m C)) as (W & HW & HWb).
  assert (HWb' : forall i j, (i < n)%nat -> (j < m)%nat -> - W <= cr m C i j <= W).
  { intros i j Hi Hj. specialize (HWb i j Hi Hj). unfold Rabs in HWb. destruct (Rcase_abs (cr m C i j)); lra. }
  destruct (fin_time L (fun j t => x t j < - K - 2 * W)) as [T HT].
  { intros j t t' H Hle. pose proof (chain_decr' t t' j Hle). lra. }
  { intros j Hj. apply HL in Hj. apply Hj. }
  (* after T no column of L is touched *)
  assert (Hun : forall t, (T <= t)%nat -> forall j, In j L -> x (S t) j = x t j).
  { intros t Ht j Hj.
    destruct (chain_step t) as (i & j1 & j2 & Hi & Hna & Hj1 & Hj2 & Hl1 & Hmin & _ & _ & Hsame & _).
    apply Hsame. intros ->.
    pose proof (ai_core _ _ _ _ _ (Hinv t)) as Hc.
    assert (HxL : forall j, In j L -> x t j < - K - 2 * W).
    { intros j' Hj'. pose proof (chain_decr' T t j' Ht). specialize (HT j' Hj'). lra. }
    destruct (hall_escape n m C _ _ _ L i Hhall Hc HndL) as (k & Hk & Hav & Hnk); auto.
    - intros j' Hj'. pose proof (HxL j' Hj') as Hx.
      apply HL in Hj'. destruct Hj' as [Hin _]. apply in_seq in Hin.
      assert (Hjm : (j' < m)%nat) by lia.
      split; auto.
      destruct (v_cases m _ j' (co_v _ _ _ _ _ _ Hc) Hjm) as [(Ev & El & _)|(_ & _ & Ez)].
      2:{ exfalso. unfold x in Hx. lra. }
      split; auto.
      destruct (nth j' (a_colsol (st t)) None) as [i'|] eqn:Ec.
      2:{ exfalso. pose proof (co_a3 _ _ _ _ _ _ Hc _ Hjm Ec) as E0.
          assert (x t j' = 0) by (unfold x, vr; rewrite E0; auto). lra. }
      exists i'. split; auto. intros k Hk Hav.
      destruct (in_dec Nat.eq_dec k L); auto. exfalso.
      pose proof (co_pair _ _ _ _ _ _ Hc _ _ Hjm Ec) as P.
      destruct (co_a1 _ _ _ _ _ _ Hc _ _ Hjm Ec) as [Hi' _].
      pose proof (po_min _ _ _ _ _ _ P El k Hk Hav) as Hle. unfold LapBase.rc in Hle.
      pose proof (HWb' i' j' Hi' Hjm). pose proof (HWb' i' k Hi' Hk).
      pose proof (HKb k t Hk n0). unfold x in *. lra.
    - pose proof (Hmin k Hk Hav) as Hle. unfold LapBase.rc in Hle.
      pose proof (HWb' i j1 Hi Hj1). pose proof (HWb' i k Hi Hk).
      pose proof (HKb k t Hk Hnk). pose proof (HxL j1 Hj). unfold x in *. lra. }
  assert (HLnil : forall j, In j L -> False).
  { intros j Hj. pose proof Hj as Hj'. apply HL in Hj'. destruct Hj' as [_ Hu].
    destruct (Hu (x T j)) as [t Ht].
    destruct (Nat.le_gt_cases T t) as [Hle|Hgt].
    - assert (x t j = x T j); [|lra]. clear Ht. induction Hle; auto. rewrite Hun; auto.
    - pose proof (chain_decr' t T j ltac:(lia)). lra. }
  exists (- K). intros t j Hj. apply HKb; auto. intros H. apply (HLnil j H).
Qed.

Lemma no_chain : False.
Proof.
  destruct chain_bounded as [B HB].
  destruct (fin_choice m (fun j l => (forall t, l <= x t j) /\
      forall eps, 0 < eps -> exists t, x t j < l + eps) 0) as [l Hl].
  { intros j Hj. apply (decr_limit (fun t => x t j) B).
    - intros; apply chain_decr.
    - intros; apply HB; auto. }
  (* constants *)
  set (Ks := flat_map (fun i => flat_map (fun j => map (fun j' =>
      l j' + cr m C i j - cr m C i j' - l j) (seq 0 m)) (seq 0 m)) (seq 0 n)).
  assert (HKs : forall i j j', (i < n)%nat -> (j < m)%nat -> (j' < m)%nat ->
      In (l j' + cr m C i j - cr m C i j' - l j) Ks).
  { intros i j j' Hi Hj Hj'. unfold Ks. apply in_flat_map. exists i. split; [apply in_seq; lia|].
    apply in_flat_map. exists j. split; [apply in_seq; lia|].
    apply in_map_iff. exists j'. split; auto. apply in_seq; lia. }
  destruct (min_abs Ks) as (eps & He & Heps).
  destruct (fin_time (seq 0 m) (fun j t => x t j < l j + eps)) as [T HT].
  { intros j t t' H Hle. pose proof (chain_decr' t t' j Hle). lra. }
  { intros j Hj. apply in_seq in Hj. apply (Hl j); auto. lia. }
  set (e := fun t j => x (T + t)%nat j - l j).
  assert (He0 : forall t j, (j < m)%nat -> 0 <= e t j < eps).
  { intros t j Hj. unfold e. destruct (Hl j Hj) as [Hl1 _]. specialize (Hl1 (T + t)%nat).
    pose proof (chain_decr' T (T + t)%nat j ltac:(lia)).
    assert (x T j < l j + eps) by (apply HT; apply in_seq; lia). lra. }
  assert (Hstep : forall t, exists j1 j2, (j1 < m)%nat /\ (j2 < m)%nat /\
      e (S t) j1 = e t j2 /\ e (S t) j1 < e t j1 /\ forall j, j <> j1 -> e (S t) j = e t j).
  { intros t. destruct (chain_step (T + t)%nat) as (i & j1 & j2 & Hi & _ & Hj1 & Hj2 & _ & _ & Ex & Hlt & Hsame & _).
    exists j1, j2. split; auto. split; auto.
    assert (Es : (T + S t)%nat = S (T + t)) by lia.
    split; [|split].
    - pose proof (He0 (S t) j1 Hj1) as A1. pose proof (He0 t j2 Hj2) as A2.
      pose proof (Heps _ (HKs i j1 j2 Hi Hj1 Hj2)) as HKe.
      unfold e in *. rewrite Es in *. rewrite Ex in *.
      destruct (Req_EM_T (l j2 + cr m C i j1 - cr m C i j2 - l j1) 0) as [E0|Hne]; [lra|].
      specialize (HKe Hne). unfold Rabs in HKe.
      destruct (Rcase_abs (l j2 + cr m C i j1 - cr m C i j2 - l j1)); lra.
    - unfold e. rewrite Es. lra.
    - intros j Hj. unfold e. rewrite Es. rewrite Hsame; auto. }
  set (E := map (e 0%nat) (seq 0 m)).
  assert (HE : forall t j, (j < m)%nat -> In (e t j) E).
  { induction t; intros j Hj.
    - unfold E. apply in_map. apply in_seq; lia.
    - destruct (Hstep t) as (j1 & j2 & Hj1 & Hj2 & Eq & _ & Hsame).
      destruct (Nat.eq_dec j j1) as [->|].
      + rewrite Eq. auto.
      + rewrite Hsame; auto. }
  apply (no_descent (fun t => sumn (fun j => rank E (e t j)) m)).
  intros t. destruct (Hstep t) as (j1 & j2 & Hj1 & Hj2 & _ & Hlt & Hsame).
  apply sumn_lt with j1; auto.
  - intros j Hj. destruct (Nat.eq_dec j j1) as [->|].
    + apply Nat.lt_le_incl. apply rank_lt; auto.
    + rewrite Hsame; auto.
  - apply rank_lt; auto.
Qed.
End Chain.

Lemma arr_loop_mono fuel fuel' prev (s s' : arr (T := ext R)) :
  arr_loop extR simd fuel m C prev s = Ok s' -> (fuel <= fuel')%nat ->
  arr_loop extR simd fuel' m C prev s = Ok s'.
Proof.
  revert fuel' s. induction fuel as [|fuel IH]; intros fuel' s H Hle.
  - simpl in H. destruct (a_k s <? prev)%nat eqn:E; [discriminate|].
    destruct fuel'; simpl; rewrite E; auto.
  - destruct fuel' as [|fuel']; [lia|]. simpl in *.
    destruct (a_k s <? prev)%nat; auto.
    destruct (arr_step extR simd m C s); simpl in *; auto. apply IH; auto. lia.
Qed.

Definition halts (prev : nat) (s : arr (T := ext R)) : Prop :=
  exists fuel s', arr_loop extR simd fuel m C prev s = Ok s'.

Definition next (s : arr (T := ext R)) : arr (T := ext R) :=
  match arr_step extR simd m C s with Ok s' => s' | _ => s end.

Definition meas (prev : nat) (s : arr (T := ext R)) : nat :=
  (prev - a_k s) + (m - nlocked m (a_v s)).

Lemma nlocked_le v : (nlocked m v <= m)%nat.
Proof.
  unfold nlocked, lockedcols.
  assert (length (filter (lk v) (seq 0 m)) <= length (seq 0 m))%nat.
  { generalize (seq 0 m). intros l. induction l; simpl; auto. destruct (lk v a); simpl; lia. }
  rewrite seq_length in H. auto.
Qed.

Lemma step_next prev s : arrinv prev s -> (a_k s < prev)%nat ->
  arr_step extR simd m C s = Ok (next s) /\ arrinv prev (next s) /\ progress n m C s (next s).
Proof.
  intros HI Hk. pose proof (arr_step_spec n m C HC Hhall simd prev s HI Hk) as X.
  unfold next. destruct (arr_step extR simd m C s); simpl in X; tauto.
Qed.

Lemma arr_loop_halts prev s : arrinv prev s -> halts prev s.
Proof.
  remember (meas prev s) as k eqn:Ek. revert s Ek.
  induction k as [k IH] using lt_wf_ind. intros s Ek HI.
  apply NNPP. intros Hnh.
  set (st := fun t => Nat.iter t next s).
  assert (Hst : forall t, arrinv prev (st t) /\ ~ halts prev (st t) /\ meas prev (st t) = k /\
                 lowering (st t) (st (S t))).
  { assert (Hone : forall s, arrinv prev s -> ~ halts prev s -> meas prev s = k ->
        arrinv prev (next s) /\ ~ halts prev (next s) /\ meas prev (next s) = k /\ lowering s (next s)).
    { clear s Ek HI Hnh st. intros s HI Hnh Em.
      destruct (Nat.lt_ge_cases (a_k s) prev) as [Hk|Hk].
      2:{ exfalso. apply Hnh. exists 0%nat, s. simpl. apply Nat.ltb_ge in Hk. rewrite Hk. auto. }
      destruct (step_next prev s HI Hk) as (Es & HI' & (Hnl & Hpr)).
      assert (Hnh' : ~ halts prev (next s)).
      { intros (fuel & s' & Hf). apply Hnh. exists (S fuel), s'. simpl.
        apply Nat.ltb_lt in Hk. rewrite Hk, Es. simpl. auto. }
      assert (Hge : ~ (meas prev (next s) < k)%nat).
      { intros Hlt. apply Hnh'. eapply IH; eauto. }
      pose proof (nlocked_le (a_v s)). pose proof (nlocked_le (a_v (next s))).
      unfold meas in *.
      split; auto. split; auto.
      destruct Hpr as [Hk'|[Hk' [Hl'|Hl']]].
      - exfalso. lia.
      - exfalso. lia.
      - split; auto. rewrite Hk' in *. lia. }
    assert (Hall : forall t, arrinv prev (st t) /\ ~ halts prev (st t) /\ meas prev (st t) = k).
    { induction t; [simpl; auto|]. destruct IHt as (A & B & D).
      destruct (Hone _ A B D) as (A' & B' & D' & _). simpl. auto. }
    intros t. destruct (Hall t) as (A & B & D). split; auto. split; auto. split; auto.
    apply (Hone _ A B D). }
  apply (no_chain prev st).
  - intros t. apply Hst.
  - intros t. apply Hst.
Qed.

Lemma arr_pass_halts s : passinv n m C s ->
  exists fuel0 s', passinv n m C s' /\
    forall fuel, (fuel0 <= fuel)%nat -> arr_pass extR simd fuel m C s = Ok s'.
Proof.
  intros HP. pose proof (pass_start _ _ _ _ HP) as HI.
  destruct (arr_loop_halts _ _ HI) as (fuel0 & s' & E).
  exists fuel0, s'.
  assert (H : forall fuel, (fuel0 <= fuel)%nat -> arr_pass extR simd fuel m C s = Ok s')
    by (intros; eapply arr_loop_mono; eauto).
  split; auto.
  pose proof (arr_pass_spec n m C HC Hhall simd fuel0 s HP) as X. rewrite H in X; auto.
Qed.
End Term.
