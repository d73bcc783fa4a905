(** Rounding errors of the prediction. *)
From Coq Require Import List Arith Lia Bool Reals ZArith Lra Psatz Permutation.
From Flocq Require Import Core BinarySingleNaN PrimFloat.
From Coq Require Import Floats.
From Verif Require Import Scalar FloatBase ClusterFloat KalmanFloat KalmanFloatSpec KalmanFloatProofs KalmanFloatErr PredictFloat PredictFloatSpec.
Import ListNotations.
Local Open Scope R_scope.
Local Notation bp := (bpow radix2).
Local Notation u := (bp (-53)).

Lemma bp_le a b : (a <= b)%Z -> bp a <= bp b. Proof. apply bpow_le. Qed.

Lemma bp998 a b : Rabs a <= bp 998 -> Rabs b <= bp 998 -> Rabs (a + b) <= bp 1000.
Proof.
  intros Ha Hb. eapply Rle_trans; [apply Rabs_triang|]. change (bp 1000) with (bp (2 + 998)). rewrite bpow_plus.
  change (bp 2) with 4. pose proof (bp_pos 998). lra.
Qed.
Lemma rnd_rnd x : rnd (rnd x) = rnd x.
Proof. apply round_generic; [auto with typeclass_instances|]. apply generic_format_round; [exact valid64|auto with typeclass_instances]. Qed.
Definition hasn (k : nat) (l : list nat) : bool := existsb (Nat.eqb k) l.
Lemma hasn_in k l : hasn k l = true <-> In k l.
Proof.
  unfold hasn. rewrite existsb_exists. split.
  - intros (x & Hx & E). apply Nat.eqb_eq in E. subst. auto.
  - intros H. exists k. split; auto. apply Nat.eqb_refl.
Qed.
Lemma hasn_app k l l' : hasn k (l ++ l') = hasn k l || hasn k l'.
Proof. apply existsb_app. Qed.

(** A sum with two terms that need not be 0. *)
Lemma sum_double (f : nat -> float) i j a b l s : i <> j -> is (f i) a -> is (f j) b -> Rabs a <= bp 998 -> Rabs b <= bp 998 ->
  fsums l s -> forall ks, l = map f ks -> NoDup ks -> (forall k, In k ks -> k <> i -> k <> j -> is (f k) 0) ->
  is s (rnd ((if hasn i ks then a else 0) + (if hasn j ks then b else 0))).
Proof.
  intros Hij Hi Hj Ha Hb H. pose proof (is_format _ _ Hi) as Fa. pose proof (is_format _ _ Hj) as Fb.
  assert (Z0 : Rabs 0 <= bp 998) by (rewrite Rabs_R0; apply Rlt_le, bp_pos).
  induction H as [|x|l l' s s' H1 IH1 H2 IH2|l l' s H1 H2 IH]; intros ks E ND Hz.
  - symmetry in E. apply map_eq_nil in E. subst ks. cbn. rewrite Rplus_0_l, rnd_0. apply is_0.
  - destruct ks as [|k [|? ?]]; try discriminate. cbn in E. injection E as ->.
    destruct (Nat.eq_dec k i) as [->|Ni]; [|destruct (Nat.eq_dec k j) as [->|Nj]].
    + cbn [hasn existsb]. rewrite Nat.eqb_refl. destruct (Nat.eqb_spec j i) as [E|_]; [congruence|]. cbn. rewrite Rplus_0_r, Fa. exact Hi.
    + cbn [hasn existsb]. rewrite Nat.eqb_refl. destruct (Nat.eqb_spec i j) as [E|_]; [congruence|]. cbn. rewrite Rplus_0_l, Fb. exact Hj.
    + cbn [hasn existsb]. destruct (Nat.eqb_spec i k) as [E|_]; [congruence|]. destruct (Nat.eqb_spec j k) as [E|_]; [congruence|]. cbn.
      rewrite Rplus_0_l, rnd_0. apply Hz; [left; reflexivity|exact Ni|exact Nj].
  - symmetry in E. apply map_eq_app in E. destruct E as (k1 & k2 & -> & <- & <-).
    assert (D : forall k, hasn k k1 = true -> hasn k k2 = true -> False).
    { intros k I1 I2. apply hasn_in in I1. apply hasn_in in I2. clear - ND I1 I2. induction k1 as [|y k1 IH]; [destruct I1|].
      cbn in ND. inversion ND as [|? ? N1 N2]; subst. destruct I1 as [->|I1]; [apply N1, in_or_app; right; exact I2|auto]. }
    specialize (IH1 k1 eq_refl). specialize (IH2 k2 eq_refl).
    assert (N1 : NoDup k1 /\ NoDup k2).
    { clear - ND. induction k1 as [|y k1 IH]; [split; [constructor|exact ND]|]. cbn in ND. inversion ND as [|? ? A B]; subst.
      destruct (IH B) as [C E]. split; [constructor; [intros I; apply A, in_or_app; left; exact I|exact C]|exact E]. }
    destruct N1 as [N1 N2].
    specialize (IH1 N1 (fun k I => Hz k (in_or_app _ _ _ (or_introl I)))). specialize (IH2 N2 (fun k I => Hz k (in_or_app _ _ _ (or_intror I)))).
    rewrite !hasn_app. pose proof (D i) as Di. pose proof (D j) as Dj.
    assert (R0 : rnd (0 + 0) = 0) by (rewrite Rplus_0_l; apply rnd_0).
    assert (Ra : rnd (a + 0) = a) by (rewrite Rplus_0_r; exact Fa). assert (Rb : rnd (0 + b) = b) by (rewrite Rplus_0_l; exact Fb).
    assert (Bab : Rabs (rnd (a + b)) <= bp 1000).
    { apply rnd_abs; [lia|]. apply bp998; assumption. }
    assert (Rab : rnd (rnd (a + b)) = rnd (a + b)) by (apply rnd_rnd).
    destruct (hasn i k1), (hasn i k2); try (exfalso; apply Di; reflexivity); destruct (hasn j k1), (hasn j k2);
      try (exfalso; apply Dj; reflexivity); cbn [orb]; rewrite ?R0, ?Ra, ?Rb.
    all: try rewrite R0 in IH1; try rewrite Ra in IH1; try rewrite Rb in IH1; try rewrite R0 in IH2; try rewrite Ra in IH2; try rewrite Rb in IH2.
    all: pose proof (is_add _ _ _ _ IH1 IH2) as G.
    all: try rewrite Rplus_0_r in G; try rewrite Rplus_0_l in G; try rewrite Rab in G; try rewrite Fa in G; try rewrite Fb in G; try rewrite rnd_0 in G.
    all: try (apply G; first [exact Bab|apply bp998; assumption|eapply Rle_trans; [eassumption|apply bp_le; lia]]).
    all: rewrite Rplus_comm; apply G; rewrite Rplus_comm; apply bp998; assumption.
  - rewrite E in H1. apply Permutation_map_inv in H1. destruct H1 as (k2 & -> & HP).
    assert (Q : forall k, hasn k ks = hasn k k2).
    { intros k. apply eq_true_iff_eq. rewrite !hasn_in. split; apply Permutation_in; [exact HP|apply Permutation_sym; exact HP]. }
    rewrite !Q. apply IH; [reflexivity|eapply Permutation_NoDup; eassumption|]. intros k I. apply Hz. eapply Permutation_in; [apply Permutation_sym; exact HP|exact I].
Qed.
Lemma sum_pair n (f : nat -> float) s i j a b : fsums (map f (seq 0 n)) s -> (i < n)%nat -> (j < n)%nat -> i <> j ->
  is (f i) a -> is (f j) b -> Rabs a <= bp 998 -> Rabs b <= bp 998 ->
  (forall k, (k < n)%nat -> k <> i -> k <> j -> is (f k) 0) -> is s (rnd (a + b)).
Proof.
  intros Hs Li Lj Hij Hi Hj Ha Hb Hz.
  pose proof (sum_double f i j a b _ _ Hij Hi Hj Ha Hb Hs _ eq_refl (seq_NoDup n 0)) as H.
  assert (I1 : hasn i (seq 0 n) = true) by (apply hasn_in, in_seq; lia). assert (I2 : hasn j (seq 0 n) = true) by (apply hasn_in, in_seq; lia).
  rewrite I1, I2 in H. apply H. intros k Hk. apply Hz. apply in_seq in Hk. lia.
Qed.

Lemma u_tiny : u <= / 9000000000000000.
Proof. change u with (/ IZR (2 ^ 53)). apply Rinv_le_contravar; [lra|]. apply IZR_le. lia. Qed.
Lemma ku k : 0 <= k <= 1000000000000 -> 0 <= k * u <= / 1000.
Proof. intros Hk. pose proof u_pos. pose proof u_tiny. split; [apply Rmult_le_pos; lra|]. apply Rle_trans with (1000000000000 * / 9000000000000000); [apply Rmult_le_compat; lra|lra]. Qed.

(** [x] is the real [y] up to [k] roundings relative to the size [s], which is 0 or
    between 2^-m and 2^m. *)
Definition ap (k : R) (m : Z) (s : R) (x : float) (y : R) : Prop :=
  exists r, is x r /\ Rabs (r - y) <= k * u * s /\ Rabs y <= s /\ (s = 0 \/ bp (- m) <= s) /\ s <= bp m.

Lemma ap_pos k m s x y : ap k m s x y -> 0 <= s.
Proof. intros (r & _ & _ & H & _). pose proof (Rabs_pos y). lra. Qed.
Lemma ap_big k m s x y r : 0 <= k <= 1000000000000 -> (m <= 900)%Z -> is x r -> Rabs (r - y) <= k * u * s -> Rabs y <= s -> s <= bp m -> Rabs r <= 2 * s /\ Rabs r <= bp 901.
Proof.
  intros Hk Hm _ H1 H2 H3. pose proof u_pos. pose proof u_small. pose proof (Rabs_pos y).
  assert (A : Rabs r <= 2 * s). { replace r with ((r - y) + y) by ring. eapply Rle_trans; [apply Rabs_triang|].
    pose proof (ku k Hk). assert (k * u * s <= 1 * s) by (apply Rmult_le_compat_r; lra). lra. }
  split; [exact A|]. change (bp 901) with (bp (1 + 900)). rewrite bpow_plus. change (bp 1) with 2. pose proof (bp_le m 900 Hm). lra.
Qed.
Lemma ap_exact x s m : fin x -> s = Rabs (val x) -> (s = 0 \/ bp (- m) <= s) -> s <= bp m -> ap 0 m s x (val x).
Proof.
  intros F E H1 H2. exists (val x). repeat split; auto; [|lra]. replace (val x - val x) with 0 by ring. rewrite Rabs_R0. lra.
Qed.
Lemma ap_same k m s x y y' : y = y' -> ap k m s x y -> ap k m s x y'. Proof. intros ->. auto. Qed.

Lemma size_add m m' s s' : 0 <= s -> 0 <= s' -> (s = 0 \/ bp (- m) <= s) -> (s' = 0 \/ bp (- m') <= s') ->
  s + s' = 0 \/ bp (- (Z.max m m' + 1)) <= s + s'.
Proof.
  intros P1 P2 [->|H1] [->|H2].
  - left. ring.
  - right. eapply Rle_trans; [|rewrite Rplus_0_l; exact H2]. apply bp_le. lia.
  - right. eapply Rle_trans; [|rewrite Rplus_0_r; exact H1]. apply bp_le. lia.
  - right. eapply Rle_trans with (bp (- m)); [apply bp_le; lia|lra].
Qed.
Lemma size_le_add m m' s s' : s <= bp m -> s' <= bp m' -> s + s' <= bp (Z.max m m' + 1).
Proof.
  intros H1 H2. rewrite bpow_plus. change (bp 1) with 2. pose proof (bp_le m (Z.max m m')). pose proof (bp_le m' (Z.max m m')).
  assert (bp m <= bp (Z.max m m')) by (apply bp_le; lia). assert (bp m' <= bp (Z.max m m')) by (apply bp_le; lia). lra.
Qed.

(** Adding: a sum of two terms, whatever adds them. *)
Lemma ap_plus k m m' s s' x x' z y y' : 0 <= k <= 1000000000000 -> (m <= 900)%Z -> (m' <= 900)%Z -> ap k m s x y -> ap k m' s' x' y' ->
  (forall r r', is x r -> is x' r' -> Rabs r <= bp 901 -> Rabs r' <= bp 901 -> is z (rnd (r + r'))) ->
  ap (k + 1 + / 50) (Z.max m m' + 1) (s + s') z (y + y').
Proof.
  intros Hk Lm Lm' A A' Hz. pose proof (ap_pos _ _ _ _ _ A) as Ps. pose proof (ap_pos _ _ _ _ _ A') as Ps'.
  destruct A as (r & Ir & E & By & S & B). destruct A' as (r' & Ir' & E' & By' & S' & B').
  destruct (ap_big k m s x y r) as [_ B1]; auto. destruct (ap_big k m' s' x' y' r') as [_ B2]; auto.
  exists (rnd (r + r')). split; [apply Hz; auto|]. split; [|split; [|split]].
  - destruct (plus_rel r r' (is_format _ _ Ir) (is_format _ _ Ir')) as (d & -> & Hd).
    replace ((r + r') * (1 + d) - (y + y')) with (((r - y) + (r' - y')) * (1 + d) + (y + y') * d) by ring.
    eapply Rle_trans; [apply Rabs_triang|]. rewrite !Rabs_mult.
    assert (T1 : Rabs (r - y + (r' - y')) <= k * u * (s + s')) by (eapply Rle_trans; [apply Rabs_triang|]; lra).
    assert (T2 : Rabs (y + y') <= s + s') by (eapply Rle_trans; [apply Rabs_triang|]; lra).
    assert (T3 : Rabs (1 + d) <= 1 + u). { eapply Rle_trans; [apply Rabs_triang|]. rewrite Rabs_R1. lra. }
    pose proof u_pos as U. pose proof u_small as V. pose proof (Rabs_pos (r - y + (r' - y'))). pose proof (Rabs_pos (y + y')). pose proof (Rabs_pos d). pose proof (Rabs_pos (1 + d)).
    apply Rle_trans with (k * u * (s + s') * (1 + u) + (s + s') * u).
    + apply Rplus_le_compat; apply Rmult_le_compat; auto.
    + assert (W : k * u * (s + s') * u <= / 50 * u * (s + s')).
      { replace (k * u * (s + s') * u) with (k * u * (u * (s + s'))) by ring. replace (/ 50 * u * (s + s')) with (/ 50 * (u * (s + s'))) by ring.
        pose proof (ku k Hk). apply Rmult_le_compat_r; [apply Rmult_le_pos; lra|lra]. }
      lra.
  - eapply Rle_trans; [apply Rabs_triang|]. lra.
  - apply size_add; auto.
  - apply size_le_add; auto.
Qed.

Lemma ap_weaken k k' m m' s x y : k <= k' -> (m <= m')%Z -> ap k m s x y -> ap k' m' s x y.
Proof.
  intros Hk Hm A. pose proof (ap_pos _ _ _ _ _ A) as Ps. destruct A as (r & Ir & E & By & S & B). exists r. split; [exact Ir|]. split; [|split; [exact By|split]].
  - pose proof u_pos. eapply Rle_trans; [exact E|]. apply Rmult_le_compat_r; [exact Ps|]. apply Rmult_le_compat_r; lra.
  - destruct S as [S|S]; [left; exact S|right]. eapply Rle_trans; [|exact S]. apply bp_le. lia.
  - eapply Rle_trans; [exact B|]. apply bp_le. lia.
Qed.

(** Scaling by the exact number [c >= 0]. *)
Lemma ap_scale k m n s x z y c : 0 <= k <= 1000000000000 -> (0 <= m)%Z -> (0 <= n)%Z -> (m + n <= 900)%Z -> 0 <= c -> (c = 0 \/ bp (- n) <= c) -> c <= bp n ->
  ap k m s x y -> (forall r, is x r -> Rabs (c * r) <= bp 902 -> is z (rnd (c * r))) ->
  ap (k + 1 + / 50) (m + n) (c * s) z (c * y).
Proof.
  intros Hk Lm Ln L Hc C1 C2 A Hz. pose proof (ap_pos _ _ _ _ _ A) as Ps. destruct A as (r & Ir & E & By & S & B).
  destruct (ap_big k m s x y r) as [B0 B1]; auto; [lia|].
  assert (CS : c * s <= bp (m + n)). { rewrite bpow_plus, (Rmult_comm (bp m)). apply Rmult_le_compat; auto. }
  exists (rnd (c * r)). split; [|split; [|split; [|split]]].
  - apply Hz; [exact Ir|]. rewrite Rabs_mult, (Rabs_pos_eq c) by exact Hc. change (bp 902) with (bp (2 + 900)). rewrite bpow_plus. change (bp 2) with 4.
    pose proof (bp_le (m + n) 900 L). nra.
  - assert (D : c * s = 0 \/ bp (-900) <= c * s).
    { destruct C1 as [->|C1]; [left; ring|]. destruct S as [->|S]; [left; ring|]. right. apply Rle_trans with (bp (- n) * bp (- m)).
      - rewrite <- bpow_plus. apply bp_le. lia.
      - apply Rmult_le_compat; auto; apply Rlt_le, bp_pos. }
    destruct D as [D|D].
    + assert (Z : c * r = 0 /\ c * y = 0).
      { apply Rmult_integral in D. destruct D as [->| ->]; [split; ring|]. rewrite Rmult_0_r in B0. pose proof (Rabs_pos r). pose proof (Rabs_pos y).
        assert (Rabs r = 0) by lra. assert (Rabs y = 0) by lra.
        destruct (Req_dec r 0) as [->|N]; [|apply Rabs_no_R0 in N; contradiction]. destruct (Req_dec y 0) as [->|N]; [|apply Rabs_no_R0 in N; contradiction]. split; ring. }
      destruct Z as [-> ->]. rewrite rnd_0, D. replace (0 - 0) with 0 by ring. rewrite Rabs_R0. lra.
    + destruct (abs_err (c * r)) as (e & f & -> & He & Hf).
      replace (c * r * (1 + e) + f - c * y) with (c * (r - y) * (1 + e) + (c * y) * e + f) by ring.
      eapply Rle_trans; [apply Rabs_triang|]. eapply Rle_trans; [apply Rplus_le_compat_r, Rabs_triang|]. rewrite !Rabs_mult, (Rabs_pos_eq c) by exact Hc.
      assert (T3 : Rabs (1 + e) <= 1 + u). { eapply Rle_trans; [apply Rabs_triang|]. rewrite Rabs_R1. lra. }
      pose proof u_pos as U. pose proof u_small as V. pose proof (Rabs_pos (r - y)). pose proof (Rabs_pos y). pose proof (Rabs_pos e). pose proof (Rabs_pos (1 + e)).
      assert (F : bp (-1075) <= / 100 * u * (c * s)).
      { apply Rle_trans with (bp (-7) * u * bp (-900)).
        - rewrite <- !bpow_plus. apply bp_le. lia.
        - apply Rmult_le_compat; [|apply Rlt_le, bp_pos| |exact D].
          + apply Rmult_le_pos; apply Rlt_le, bp_pos.
          + apply Rmult_le_compat_r; [lra|]. change (bp (-7)) with (/ 128). lra. }
      apply Rle_trans with (c * (k * u * s) * (1 + u) + c * s * u + / 100 * u * (c * s)).
      * apply Rplus_le_compat; [|lra]. apply Rplus_le_compat.
        -- apply Rmult_le_compat; auto; [apply Rmult_le_pos; auto|apply Rmult_le_compat_l; auto].
        -- apply Rmult_le_compat; auto; [apply Rmult_le_pos; auto|apply Rmult_le_compat_l; auto].
      * assert (W : k * u * u * (c * s) <= / 100 * u * (c * s)).
        { apply Rmult_le_compat_r; [apply Rmult_le_pos; auto|]. pose proof (ku k Hk). apply Rmult_le_compat_r; lra. }
        lra.
  - rewrite Rabs_mult, (Rabs_pos_eq c) by exact Hc. apply Rmult_le_compat_l; auto.
  - destruct C1 as [->|C1]; [left; ring|]. destruct S as [->|S]; [left; ring|]. right.
    replace (- (m + n))%Z with (- n + - m)%Z by lia. rewrite bpow_plus. apply Rmult_le_compat; auto; apply Rlt_le, bp_pos.
  - exact CS.
Qed.

(** Products, differences and the reciprocal of approximate numbers. *)
Lemma is_opp x r : is x r -> is (- x)%float (- r).
Proof. intros [F V]. unfold is, fin, val in *. rewrite PrimFloat.opp_equiv, is_finite_Bopp, B2R_Bopp. split; auto. rewrite V. ring. Qed.
Lemma ap_opp k m s x y : ap k m s x y -> ap k m s (- x)%float (- y).
Proof.
  intros (r & [F V] & E & B & S). exists (- r). split; [|split; [|split; [rewrite Rabs_Ropp; exact B|exact S]]].
  - apply is_opp. split; auto.
  - replace (- r - - y) with (- (r - y)) by ring. rewrite Rabs_Ropp. exact E.
Qed.
Lemma ap_minus k m m' s s' x x' y y' : 0 <= k <= 1000000000000 -> (m <= 900)%Z -> (m' <= 900)%Z -> ap k m s x y -> ap k m' s' x' y' ->
  ap (k + 1 + / 50) (Z.max m m' + 1) (s + s') (x - x')%float (y - y').
Proof.
  intros Hk Lm Lm' A A'. unfold Rminus at 1. pose proof (ap_opp _ _ _ _ _ A') as O.
  apply (ap_plus k m m' s s' x (- x')%float); auto. intros r r' Ir Ir' B B'.
  assert (I2 : is x' (- r')).
  { destruct A' as (r2 & I2 & _). destruct (is_opp _ _ I2) as [_ V2]. destruct Ir' as [_ V']. rewrite V2 in V'. rewrite <- V'. rewrite Ropp_involutive. exact I2. }
  replace (r + r') with (r - - r') by ring. apply is_sub; auto. replace (r - - r') with (r + r') by ring. apply bp998; (eapply Rle_trans; [eassumption|apply bp_le; lia]).
Qed.
Lemma ap_mult k k' m m' s s' x x' y y' : 0 <= k <= 1000000000000 -> 0 <= k' <= 1000000000000 -> (0 <= m)%Z -> (0 <= m')%Z -> (m + m' <= 900)%Z ->
  ap k m s x y -> ap k' m' s' x' y' -> ap ((k + k') * (101 / 100) + 1 + / 50) (m + m') (s * s') (x * x')%float (y * y').
Proof.
  intros Hk Hk' Lm Lm' L A A'. pose proof (ap_pos _ _ _ _ _ A) as Ps. pose proof (ap_pos _ _ _ _ _ A') as Ps'.
  destruct A as (r & Ir & E & By & S & B). destruct A' as (r' & Ir' & E' & By' & S' & B').
  destruct (ap_big k m s x y r) as [B0 _]; auto; [lia|]. destruct (ap_big k' m' s' x' y' r') as [B0' _]; auto; [lia|].
  assert (CS : s * s' <= bp (m + m')) by (rewrite bpow_plus; apply Rmult_le_compat; auto).
  assert (PS : 0 <= s * s') by (apply Rmult_le_pos; auto).
  pose proof (ku k Hk) as K1. pose proof (ku k' Hk') as K2. pose proof u_pos as U.
  assert (BR : Rabs (r * r') <= 4 * (s * s')).
  { rewrite Rabs_mult. replace (4 * (s * s')) with (2 * s * (2 * s')) by ring. apply Rmult_le_compat; auto; apply Rabs_pos. }
  assert (ER : Rabs (r * r' - y * y') <= (k + k') * (1001 / 1000) * u * (s * s')).
  { replace (r * r' - y * y') with ((r - y) * y' + y * (r' - y') + (r - y) * (r' - y')) by ring.
    eapply Rle_trans; [apply Rabs_triang|]. eapply Rle_trans; [apply Rplus_le_compat_r, Rabs_triang|]. rewrite !Rabs_mult.
    pose proof (Rabs_pos (r - y)). pose proof (Rabs_pos (r' - y')). pose proof (Rabs_pos y). pose proof (Rabs_pos y').
    assert (T1 : Rabs (r - y) * Rabs y' <= k * u * s * s') by (apply Rmult_le_compat; auto).
    assert (T2 : Rabs y * Rabs (r' - y') <= s * (k' * u * s')) by (apply Rmult_le_compat; auto).
    assert (T3 : Rabs (r - y) * Rabs (r' - y') <= k * u * s * (k' * u * s')) by (apply Rmult_le_compat; auto).
    assert (T4 : k * u * s * (k' * u * s') <= / 1000 * (k' * u) * (s * s')).
    { replace (k * u * s * (k' * u * s')) with (k * u * (k' * u) * (s * s')) by ring. apply Rmult_le_compat_r; [exact PS|]. apply Rmult_le_compat_r; lra. }
    assert (0 <= k * u * (s * s')) by (apply Rmult_le_pos; lra). lra. }
  assert (D : s * s' = 0 \/ bp (- (m + m')) <= s * s').
  { destruct S as [->|S]; [left; ring|]. destruct S' as [->|S']; [left; ring|]. right. replace (- (m + m'))%Z with (- m + - m')%Z by lia.
    rewrite bpow_plus. apply Rmult_le_compat; auto; apply Rlt_le, bp_pos. }
  exists (rnd (r * r')). split; [|split; [|split; [|split]]].
  - apply is_mul; auto. eapply Rle_trans; [exact BR|]. change (bp 1000) with (bp (2 + 998)). rewrite bpow_plus. change (bp 2) with 4.
    pose proof (bp_le (m + m') 998 ltac:(lia)). lra.
  - destruct D as [D|D].
    + rewrite D, Rmult_0_r in BR. rewrite D, Rmult_0_r in ER. assert (Z : r * r' = 0). { pose proof (Rabs_pos (r * r')). destruct (Req_dec (r * r') 0) as [|N]; auto. apply Rabs_no_R0 in N. lra. }
      rewrite Z in *. rewrite rnd_0, D, Rmult_0_r. exact ER.
    + destruct (abs_err (r * r')) as (e & f & -> & He & Hf).
      replace (r * r' * (1 + e) + f - y * y') with ((r * r' - y * y') * (1 + e) + y * y' * e + f) by ring.
      eapply Rle_trans; [apply Rabs_triang|]. eapply Rle_trans; [apply Rplus_le_compat_r, Rabs_triang|]. rewrite (Rabs_mult _ (1 + e)), (Rabs_mult (y * y')).
      assert (T3 : Rabs (1 + e) <= 1 + / 1000). { eapply Rle_trans; [apply Rabs_triang|]. rewrite Rabs_R1. pose proof u_small. lra. }
      assert (Fb : bp (-1075) <= / 50 * u * (s * s')).
      { apply Rle_trans with (bp (-6) * u * bp (-900)).
        - rewrite <- !bpow_plus. apply bp_le. lia.
        - apply Rmult_le_compat; [apply Rmult_le_pos; apply Rlt_le, bp_pos|apply Rlt_le, bp_pos| |eapply Rle_trans; [apply bp_le|exact D]; lia].
          apply Rmult_le_compat_r; [lra|]. change (bp (-6)) with (/ 64). lra. }
      assert (Yb : Rabs (y * y') <= s * s') by (rewrite Rabs_mult; apply Rmult_le_compat; auto; apply Rabs_pos).
      assert (G1 : Rabs (r * r' - y * y') * Rabs (1 + e) <= (k + k') * (1001 / 1000) * u * (s * s') * (1 + / 1000)) by (apply Rmult_le_compat; auto; apply Rabs_pos).
      assert (G2 : Rabs (y * y') * Rabs e <= s * s' * u) by (apply Rmult_le_compat; auto; apply Rabs_pos).
      assert (0 <= k * u * (s * s')) by (apply Rmult_le_pos; lra). assert (0 <= k' * u * (s * s')) by (apply Rmult_le_pos; lra). lra.
  - rewrite Rabs_mult. apply Rmult_le_compat; auto; apply Rabs_pos.
  - exact D.
  - exact CS.
Qed.
Lemma ap_inv k m x y one : is one 1 -> 0 <= k <= 1000000000000 -> (0 <= m <= 900)%Z -> 0 < y -> ap k m y x y -> ap (k * (101 / 100) + 1 + / 50) m (/ y) (one / x)%float (/ y).
Proof.
  intros I1 Hk Lm Py (r & Ir & E & _ & S & B). pose proof (ku k Hk) as K1. pose proof u_pos as U.
  destruct S as [S|S]; [lra|].
  assert (Rr : y * (1 - k * u) <= r <= y * (1 + k * u)) by (split; apply Rabs_le_inv in E; lra).
  assert (Pr : 0 < r) by nra.
  assert (IY : bp (- m) <= / y <= bp m).
  { split.
    - rewrite bpow_opp. apply Rinv_le_contravar; auto.
    - replace m with (- - m)%Z by lia. rewrite bpow_opp. apply Rinv_le_contravar; [apply bp_pos|exact S]. }
  assert (PY : 0 < / y) by (apply Rinv_0_lt_compat; auto).
  assert (EI : Rabs (/ r - / y) <= k * (1002 / 1000) * u * / y).
  { replace (/ r - / y) with ((y - r) * / r * / y) by (field; lra). rewrite !Rabs_mult, (Rabs_pos_eq (/ y)) by lra. apply Rmult_le_compat_r; [lra|].
    rewrite (Rabs_pos_eq (/ r)) by (apply Rlt_le, Rinv_0_lt_compat; auto). rewrite Rabs_minus_sym.
    apply Rle_trans with (k * u * y * / r); [apply Rmult_le_compat_r; [apply Rlt_le, Rinv_0_lt_compat; auto|exact E]|].
    apply Rmult_le_reg_r with r; [auto|]. rewrite Rmult_assoc, Rinv_l by lra. nra. }
  assert (BI : Rabs (/ r) <= 2 * / y).
  { replace (/ r) with ((/ r - / y) + / y) by ring. eapply Rle_trans; [apply Rabs_triang|]. rewrite (Rabs_pos_eq (/ y)) by lra.
    assert (k * (1002 / 1000) * u * / y <= 1 * / y) by (apply Rmult_le_compat_r; lra). lra. }
  assert (BM : bp m <= bp 998) by (apply bp_le; lia).
  exists (rnd (/ r)). split; [|split; [|split; [|split]]].
  - replace (/ r) with (1 / r) by (field; lra). apply is_div; auto; [lra|]. replace (1 / r) with (/ r) by (field; lra).
    eapply Rle_trans; [exact BI|]. change (bp 1000) with (bp (2 + 998)). rewrite bpow_plus. change (bp 2) with 4. lra.
  - destruct (abs_err (/ r)) as (e & f & -> & He & Hf).
    replace (/ r * (1 + e) + f - / y) with ((/ r - / y) * (1 + e) + / y * e + f) by ring.
    eapply Rle_trans; [apply Rabs_triang|]. eapply Rle_trans; [apply Rplus_le_compat_r, Rabs_triang|]. rewrite (Rabs_mult _ (1 + e)), (Rabs_mult (/ y)), (Rabs_pos_eq (/ y)) by lra.
    assert (T3 : Rabs (1 + e) <= 1 + / 1000). { eapply Rle_trans; [apply Rabs_triang|]. rewrite Rabs_R1. pose proof u_small. lra. }
    assert (Fb : bp (-1075) <= / 50 * u * / y).
    { apply Rle_trans with (bp (-6) * u * bp (-900)).
      - rewrite <- !bpow_plus. apply bp_le. lia.
      - apply Rmult_le_compat; [apply Rmult_le_pos; apply Rlt_le, bp_pos|apply Rlt_le, bp_pos| |eapply Rle_trans; [apply bp_le|exact (proj1 IY)]; lia].
        apply Rmult_le_compat_r; [lra|]. change (bp (-6)) with (/ 64). lra. }
    assert (G1 : Rabs (/ r - / y) * Rabs (1 + e) <= k * (1002 / 1000) * u * / y * (1 + / 1000)) by (apply Rmult_le_compat; auto; apply Rabs_pos).
    assert (G2 : / y * Rabs e <= / y * u) by (apply Rmult_le_compat_l; lra).
    assert (0 <= k * u * / y) by (apply Rmult_le_pos; lra). lra.
  - rewrite Rabs_pos_eq; lra.
  - right. exact (proj1 IY).
  - exact (proj2 IY).
Qed.
