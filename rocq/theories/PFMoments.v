(** Particle filter: weights, missed detections, effective number, moments. *)
From Coq Require Import List Arith Bool Reals Lra Lia Permutation Sorted.
Import ListNotations.
From Verif Require Import Res Scalar PF PFSpec PFProofs.
Local Open Scope R_scope.

Section M.
Context {X L B : Type}.
Notation pf := (pf X L B).

Lemma scale_len (f : X -> R) (p : pf) : length (pw p) = length (px p) -> length (pw (scale f p)) = length (px p).
Proof. intros H. cbn. rewrite map_length, combine_length. lia. Qed.

Lemma normalize_px (p : pf) : px (normalize p) = px p.
Proof. unfold normalize. destruct (Rltb _ _); reflexivity. Qed.
Lemma normalize_perm (p : pf) : perm (normalize p) = perm p.
Proof. unfold normalize. destruct (Rltb _ _); reflexivity. Qed.
Lemma normalize_len (p : pf) : length (pw (normalize p)) = length (pw p).
Proof. unfold normalize. destruct (Rltb _ _); cbn; auto. apply map_length. Qed.
Lemma normalize_nonneg (p : pf) : (forall a, In a (pw p) -> 0 <= a) -> forall a, In a (pw (normalize p)) -> 0 <= a.
Proof.
  intros H a. unfold normalize. destruct (Rltb_spec (1 / 100000000) (rsum (pw p))); cbn; auto.
  intros Hin. apply in_map_iff in Hin as (b & <- & Hb). specialize (H _ Hb). apply Rmult_le_pos; auto. apply Rlt_le, Rinv_0_lt_compat. lra.
Qed.
Lemma normalize_either (p : pf) : rsum (pw (normalize p)) = 1 \/ (eta (normalize p) = 0 /\ rsum (pw p) <= 1 / 100000000).
Proof.
  destruct (Rlt_dec (1 / 100000000) (rsum (pw p))) as [H|H]; [left; apply normalize_sum; auto|right].
  unfold normalize. destruct (Rltb_spec (1 / 100000000) (rsum (pw p))); [lra|]. cbn. split; [auto|lra].
Qed.

Lemma scale_nonneg (f : X -> R) (p : pf) : (forall x, 0 <= f x) -> (forall a, In a (pw p) -> 0 <= a) -> forall a, In a (pw (scale f p)) -> 0 <= a.
Proof.
  intros Hf H a Hin. cbn in Hin. apply in_map_iff in Hin as ([w x] & <- & Hin). apply in_combine_l in Hin. cbn. apply Rmult_le_pos; auto.
Qed.

(** What the miss likelihood is. *)
Lemma missed_value (pd : L -> X -> R) (p : pf) : length (pw p) = length (px p) -> rsum (pw p) = 1 ->
  (forall a, In a (pw p) -> 0 <= a) -> (forall o x, 0 <= pd o x) ->
  let m := rsum (map (fun a => fst a * (1 - pd (origin p) (snd a))) (combine (pw p) (px p))) in
  m <= snd (missed pd p) <= m + 1 / 100000000.
Proof.
  intros HL H1 Hw Hpd m.
  assert (E : m = 1 - rsum (pw (scale (pd (origin p)) p))).
  { unfold m. cbn [pw scale].
    transitivity (rsum (pw p) - rsum (map (fun a => fst a * pd (origin p) (snd a)) (combine (pw p) (px p)))); [|rewrite H1; reflexivity].
    rewrite <- (rsum_fst (pw p) (px p) HL).
    replace (rsum (map fst (combine (pw p) (px p))) - rsum (map (fun a => fst a * pd (origin p) (snd a)) (combine (pw p) (px p))))
      with (rsum (map fst (combine (pw p) (px p))) + -1 * rsum (map (fun a => fst a * pd (origin p) (snd a)) (combine (pw p) (px p)))) by ring.
    rewrite <- rsum_scal, <- rsum_plus. apply rsum_ext. intros; ring. }
  assert (0 <= rsum (pw (scale (pd (origin p)) p))) by (apply rsum_nonneg, scale_nonneg; auto).
  unfold missed. cbn [snd]. unfold normalize. destruct (Rltb_spec (1 / 100000000) (rsum (pw (scale (pd (origin p)) p)))); cbn [eta invalidate]; rewrite E; lra.
Qed.

(** The weights it leaves. *)
Lemma missed_weights (pd : L -> X -> R) (p : pf) :
  let raw := map (fun a => fst a * pd (origin p) (snd a)) (combine (pw p) (px p)) in
  pw (fst (missed pd p)) = if Rltb (1 / 100000000) (rsum raw) then map (fun a => a / rsum raw) raw else raw.
Proof. cbn zeta. unfold missed, normalize. cbn [fst pw scale]. destruct (Rltb _ _); reflexivity. Qed.

(** A set with no particle that can be seen loses all its weight. *)
Lemma missed_unseen (pd : L -> X -> R) (p : pf) : (forall x, In x (px p) -> pd (origin p) x = 0) ->
  forall a, In a (pw (fst (missed pd p))) -> a = 0.
Proof.
  intros H. set (raw := map (fun a => fst a * pd (origin p) (snd a)) (combine (pw p) (px p))).
  assert (Hz : forall a, In a raw -> a = 0).
  { intros a Hin. apply in_map_iff in Hin as ([w x] & <- & Hin). apply in_combine_r in Hin. cbn. rewrite H by auto. ring. }
  assert (E : rsum raw = 0).
  { clearbody raw. clear - Hz. unfold rsum. induction raw; cbn; auto. rewrite (Hz a) by now left. rewrite IHraw by (intros; apply Hz; now right). ring. }
  rewrite missed_weights. fold raw. rewrite E. destruct (Rltb_spec (1 / 100000000) 0); [lra|]. exact Hz.
Qed.

(** ** Effective number of particles *)
Lemma rsum_const {A} (l : list A) k : rsum (map (fun _ => k) l) = INR (length l) * k.
Proof. unfold rsum. induction l as [|a l IH]; cbn [map fold_right length]; [cbn; ring|]. rewrite IH, S_INR. ring. Qed.

Lemma in_le_rsum l a : (forall b, In b l -> 0 <= b) -> In a l -> a <= rsum l.
Proof.
  unfold rsum. induction l as [|b l IH]; cbn; intros H Hin; [destruct Hin|]. pose proof (H b (or_introl eq_refl)).
  assert (0 <= rsum l) by (apply rsum_nonneg; auto). unfold rsum in *. destruct Hin as [->|Hin]; [lra|]. assert (a <= fold_right Rplus 0 l) by (apply IH; auto). lra.
Qed.

Lemma neff_bounds (p : pf) : (forall a, In a (pw p) -> 0 <= a) -> rsum (pw p) = 1 -> 1 <= neff p <= INR (length (pw p)).
Proof.
  intros Hw H1. unfold neff. set (w := pw p) in *. set (q := rsum (map (fun a => a * a) w)).
  assert (Hn : (0 < length w)%nat) by (destruct w; [unfold rsum in H1; cbn in H1; lra|cbn; lia]).
  apply lt_INR in Hn. cbn in Hn. set (n := INR (length w)) in *.
  assert (Hq1 : q <= 1).
  { apply Rle_trans with (rsum (map (fun a => a) w)); [|rewrite map_id; lra]. apply rsum_le. intros a Ha. pose proof (in_le_rsum w a Hw Ha). specialize (Hw a Ha). rewrite H1 in *. nra. }
  assert (Hq2 : 1 / n <= q).
  { assert (H0 : 0 <= rsum (map (fun a => (a - 1 / n) * (a - 1 / n)) w)).
    { apply rsum_nonneg. intros b Hb. apply in_map_iff in Hb as (a & <- & _). apply (Rle_0_sqr (a - 1 / n)). }
    assert (E : rsum (map (fun a => (a - 1 / n) * (a - 1 / n)) w) = q + (-2 / n) * rsum w + n * (1 / n * (1 / n))).
    { unfold q, n. rewrite <- (rsum_const w (1 / INR (length w) * (1 / INR (length w)))). 
      replace (rsum w) with (rsum (map (fun a => a) w)) by (rewrite map_id; auto). rewrite <- rsum_scal, <- !rsum_plus.
      apply rsum_ext. intros a _. fold n. field. lra. }
    rewrite E, H1 in H0. replace (n * (1 / n * (1 / n))) with (1 / n) in H0 by (field; lra). lra. }
  assert (Hi : 0 < 1 / n) by (apply Rdiv_lt_0_compat; lra).
  split.
  - replace 1 with (1 / 1) at 1 by field. unfold Rdiv. apply Rmult_le_compat_l; [lra|]. apply Rinv_le_contravar; lra.
  - replace n with (1 / (1 / n)) by (field; lra). unfold Rdiv at 1 2. apply Rmult_le_compat_l; [lra|]. apply Rinv_le_contravar; lra.
Qed.
End M.

(** ** Moments *)
Lemma pmean_between w x a lo hi : length w = length x -> (forall b, In b w -> 0 <= b) -> rsum w = 1 ->
  (forall c, In c x -> lo <= c a <= hi) -> lo <= pmean w x a <= hi.
Proof.
  intros HL Hw H1 Hx. unfold pmean. split.
  - replace lo with (rsum (map (fun i : R * (nat -> R) => lo * fst i) (combine w x))) by (rewrite (rsum_scal fst), rsum_fst, H1; auto; ring).
    apply rsum_le. intros [b c] Hin. pose proof (Hw _ (in_combine_l _ _ _ _ Hin)). pose proof (Hx _ (in_combine_r _ _ _ _ Hin)). cbn. nra.
  - replace hi with (rsum (map (fun i : R * (nat -> R) => hi * fst i) (combine w x))) by (rewrite (rsum_scal fst), rsum_fst, H1; auto; ring).
    apply rsum_le. intros [b c] Hin. pose proof (Hw _ (in_combine_l _ _ _ _ Hin)). pose proof (Hx _ (in_combine_r _ _ _ _ Hin)). cbn. nra.
Qed.

Lemma pcov_sym w x a b : pcov w x a b = pcov w x b a.
Proof. unfold pcov. apply rsum_ext. intros; ring. Qed.

Lemma total_swap {A} S (l : list A) (f : nat -> A -> R) : total S (fun a => rsum (map (f a) l)) = rsum (map (fun i => total S (fun a => f a i)) l).
Proof.
  unfold total. induction (seq 0 S) as [|a s IH]; cbn [map fold_right].
  - rewrite rsum_const. ring.
  - rewrite IH. rewrite rsum_plus. auto.
Qed.
Lemma total_scal S k f : total S (fun a => k * f a) = k * total S f.
Proof. unfold total. induction (seq 0 S); cbn; [ring|]. rewrite IHl. ring. Qed.
Lemma total_ext S f g : (forall a, f a = g a) -> total S f = total S g.
Proof. intros H. unfold total. induction (seq 0 S); cbn; auto. rewrite IHl, H. auto. Qed.

Lemma pcov_psd S w x : (forall b, In b w -> 0 <= b) -> psd S (pcov w x).
Proof.
  intros Hw u.
  set (D := fun i : R * (nat -> R) => total S (fun a => u a * (snd i a - pmean w x a))).
  assert (E : total S (fun a => total S (fun b => u a * pcov w x a b * u b)) = rsum (map (fun i => fst i * (D i * D i)) (combine w x))).
  { transitivity (total S (fun a => rsum (map (fun i : R * (nat -> R) => u a * (snd i a - pmean w x a) * (fst i * D i)) (combine w x)))).
    - apply total_ext. intros a.
      transitivity (total S (fun b => rsum (map (fun i : R * (nat -> R) => u a * (snd i a - pmean w x a) * fst i * (u b * (snd i b - pmean w x b))) (combine w x)))).
      + apply total_ext. intros b. unfold pcov. replace (u a * rsum (map (fun i => (snd i a - pmean w x a) * fst i * (snd i b - pmean w x b)) (combine w x)) * u b)
          with ((u a * u b) * rsum (map (fun i => (snd i a - pmean w x a) * fst i * (snd i b - pmean w x b)) (combine w x))) by ring.
        rewrite <- rsum_scal. apply rsum_ext. intros; ring.
      + rewrite total_swap. apply rsum_ext. intros i _. rewrite total_scal. unfold D. ring.
    - rewrite total_swap. apply rsum_ext. intros i _. rewrite <- (total_ext S (fun a => (fst i * D i) * (u a * (snd i a - pmean w x a)))) by (intros; ring).
      rewrite total_scal. fold (D i). ring. }
  rewrite E. apply rsum_nonneg. intros b Hb. apply in_map_iff in Hb as ([c y] & <- & Hin). cbn [fst]. apply in_combine_l in Hin. specialize (Hw _ Hin).
  pose proof (Rle_0_sqr (D (c, y))). apply Rmult_le_pos; auto.
Qed.

(** ** Weights over a history *)
Section H.
Context {X L B : Type}.
Variable N : nat.
Variable srt : list R -> list nat -> list nat.
Variables (ll2ne ne2ll : L -> X -> X) (pos : list R -> list X -> L) (gauss_box : list R -> list X -> B) (llbox : L -> B -> B).
Hypothesis Hs : valid_sort srt.
Hypothesis HN : (0 < N)%nat.
Notation pf := (pf X L B).
Notation step := (step N srt ll2ne ne2ll gauss_box llbox).
Notation run := (run N srt ll2ne ne2ll gauss_box llbox).

Definition good (p : pf) : Prop := wf N p /\ valid p = false /\ forall a, In a (pw p) -> 0 <= a.

(** Calls with detection probabilities and likelihoods that are not negative;
    the densities joined are well formed. *)
Definition fair (o : op) : Prop :=
  match o with
  | OCorrect pd lik => forall o x, 0 <= pd o x /\ 0 <= lik o x
  | OMissed pd => forall o x, 0 <= pd o x
  | OJoin _ aw ps => length aw = length ps /\ ps <> [] /\ (forall a, In a aw -> 0 <= a) /\ forall q, In q ps -> good q
  | _ => True
  end.

(** Calls that end with a normalisation. *)
Definition normalises (o : @op X L B) : bool :=
  match o with OCorrect _ _ | OMissed _ | ONormalize | OJoin _ _ _ => true | _ => false end.

Lemma good_normalize (p : pf) : good p -> good (normalize p).
Proof.
  intros ((H1 & H2 & H3) & Hv & Hn). split; [|split].
  - split; [rewrite normalize_len; auto|split; [rewrite normalize_px; auto|rewrite normalize_perm; auto]].
  - apply normalize_invalid; auto.
  - apply normalize_nonneg; auto.
Qed.
Lemma good_scale f (p : pf) : (forall x, 0 <= f x) -> good p -> good (scale f p).
Proof.
  intros Hf ((H1 & H2 & H3) & Hv & Hn). split; [|split; [auto|apply scale_nonneg; auto]].
  split; [rewrite scale_len; [auto|congruence]|split; auto].
Qed.

Lemma step_good o p : fair o -> good p -> exists p', step o p = Ok p' /\ good p' /\
  (normalises o = true -> rsum (pw p') = 1 \/ eta p' = 0).
Proof.
  intros Hf Hg. pose proof Hg as ((H1 & H2 & H3) & Hv & Hn). destruct o; cbn [PF.step].
  - eexists. split; [reflexivity|]. split; [|discriminate]. split; [|split; auto]. split; [auto|split; [cbn; rewrite map_length; auto|auto]].
  - eexists. split; [reflexivity|]. cbn in Hf. unfold correct. cbn [fst].
    assert (G : good (scale (fun x => pd (origin p) x * lik (origin p) x) p)) by (apply good_scale; auto; intros x; apply Rmult_le_pos; apply Hf).
    split; [apply good_normalize; auto|]. intros _. destruct (normalize_either (scale (fun x => pd (origin p) x * lik (origin p) x) p)) as [|[]]; auto.
  - eexists. split; [reflexivity|]. cbn in Hf. unfold missed. cbn [fst].
    assert (G : good (scale (pd (origin p)) p)) by (apply good_scale; auto).
    split; [apply good_normalize; auto|]. intros _. destruct (normalize_either (scale (pd (origin p)) p)) as [|[]]; auto.
  - eexists. split; [reflexivity|]. split; [apply good_normalize; auto|]. intros _. destruct (normalize_either p) as [|[]]; auto.
  - rewrite resample_invalid by auto. eexists. split; [reflexivity|]. split; [auto|discriminate].
  - rewrite update_invalid by auto. eexists. split; [reflexivity|]. split; [auto|discriminate].
  - eexists. split; [reflexivity|]. split; [|discriminate]. split; [|split; auto]. split; [auto|split; auto].
    cbn. destruct (Hs (pw p) (perm p)) as [HP _]. rewrite HP. auto.
  - cbn in Hf. destruct Hf as (Hl & Hne & Ha & Hq).
    destruct (px p) as [|x0 xs] eqn:Ex; [cbn in H2; lia|].
    destruct (join_ok N srt Hs x0 u p aw ps HN Hl Hne Ha (fun q Hi => proj1 (Hq q Hi)) Hv) as (p' & ch & E & (Hc1 & Hc2 & Hc3 & Hc4 & Hc5) & Ew & Ee & Ex' & Ev).
    exists p'. split; auto.
    set (raw := map (scaled aw (map pw ps)) ch) in *.
    assert (Hraw : forall a, In a raw -> 0 <= a).
    { intros a Hin. apply in_map_iff in Hin as (c & <- & Hc). destruct (Hc3 _ Hc) as [Hc6 Hc7]. unfold scaled. apply Rmult_le_pos.
      - apply Ha. apply nth_In. rewrite map_length in Hc6. lia.
      - rewrite map_length in Hc6. rewrite (nth_indep _ [] (pw p)) in * by (rewrite map_length; auto). rewrite map_nth in *.
        apply (Hq (nth (fst c) ps p)); [apply nth_In; auto|]. apply nth_In. auto. }
    split; [|intros _].
    + split; [|split; auto].
      * split; [|split].
        -- rewrite Ew. destruct (Rltb _ _); unfold raw; rewrite ?map_length; auto.
        -- rewrite Ex', map_length. auto.
        -- clear - E H3. unfold join in E. destruct (fill _ _ _) as [q| |]; cbn in E; try discriminate. destruct (merge _ _ _ _ _) as [r| |]; cbn in E; try discriminate.
           unfold resample in E. destruct (valid _) eqn:Evv; cbn in E.
           ++ destruct (pick_cols _ _ _ _) as [x2| |]; cbn in E; try discriminate. injection E as <-. cbn. rewrite normalize_perm. auto.
           ++ injection E as <-. rewrite normalize_perm. auto.
      * intros a. rewrite Ew. destruct (Rltb_spec (1 / 100000000) (rsum raw)); auto. intros Hin. apply in_map_iff in Hin as (b & <- & Hb).
        apply Rmult_le_pos; auto. apply Rlt_le, Rinv_0_lt_compat. lra.
    + rewrite Ew, Ee. destruct (Rltb_spec (1 / 100000000) (rsum raw)); auto. left. rewrite rsum_div. field. lra.
  - eexists. split; [reflexivity|]. split; [|discriminate]. split; [|split; auto]. split; [auto|split; [cbn; rewrite map_length; auto|auto]].
  - eexists. split; [reflexivity|]. split; [|discriminate]. unfold transform_to_global. rewrite update_invalid by auto.
    split; [|split; auto]. split; [auto|split; [cbn; rewrite map_length; auto|auto]].
Qed.

Lemma run_good os : forall p, Forall fair os -> good p -> exists p', run os p = Ok p' /\ good p'.
Proof.
  induction os as [|o os IH]; cbn [PF.run]; intros p Hf Hg; eauto. inversion Hf as [|? ? Hf1 Hf2]; subst.
  destruct (step_good o p Hf1 Hg) as (p1 & -> & Hg1 & _). cbn. auto.
Qed.

Lemma run_app os1 : forall os2 p p', run (os1 ++ os2) p = Ok p' -> exists p1, run os1 p = Ok p1 /\ run os2 p1 = Ok p'.
Proof.
  induction os1 as [|o os1 IH]; cbn [PF.run app]; intros os2 p p' H; eauto.
  destruct (step o p) as [p1| |]; cbn in *; try discriminate. apply IH; auto.
Qed.

Lemma run_last os o p p' : Forall fair (os ++ [o]) -> good p -> normalises o = true -> run (os ++ [o]) p = Ok p' ->
  rsum (pw p') = 1 \/ eta p' = 0.
Proof.
  intros Hf Hg Hn Hr. apply Forall_app in Hf as [Hf1 Hf2]. inversion Hf2; subst.
  destruct (run_app _ _ _ _ Hr) as (p1 & Hr1 & Hr2). destruct (run_good os p Hf1 Hg) as (p2 & E & Hg2). rewrite E in Hr1. injection Hr1 as ->.
  cbn [PF.run] in Hr2. destruct (step_good o p1 H1 Hg2) as (p3 & E3 & _ & H3). rewrite E3 in Hr2. cbn in Hr2. injection Hr2 as <-. auto.
Qed.

(** The constructor from a mean and a covariance. *)
Lemma construct_good x e b o : length x = N -> good (construct N ll2ne ne2ll pos gauss_box llbox (repeat (1 / INR N) N) x e b o).
Proof.
  intros Hx. unfold construct, transform_to_global. rewrite update_invalid by reflexivity. split; [|split; [reflexivity|]].
  - split; [cbn; apply repeat_length|split; [cbn; rewrite !map_length; auto|apply Permutation_refl]].
  - cbn. intros a Hin. apply repeat_spec in Hin. subst. apply lt_INR in HN. cbn in HN. apply Rlt_le, Rdiv_lt_0_compat; lra.
Qed.
End H.
