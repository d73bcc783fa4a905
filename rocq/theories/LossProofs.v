(** What joining drops. *)
From Coq Require Import List Arith Bool Reals Lia Lra Permutation.
Import ListNotations.
From Verif Require Import Res Cluster GM GMSpec GMProofs PosteriorProofs LossSpec.
Local Open Scope nat_scope.

Section Loss.
Context {G : Type}.
Notation comp := (comp (G := G)).

Lemma prob_expect (phi : G -> R) c : prob phi c = expect phi c.
Proof. induction c as [|g c IH]; cbn; auto. rewrite IH. reflexivity. Qed.
Lemma prob_within (phi : G -> R) c : nonneg c -> (forall g, (0 <= phi g <= 1)%R) -> (0 <= prob phi c <= total c)%R.
Proof.
  intros Hn Hp. induction c as [|g c IH]; cbn; [lra|]. destruct IH as [I1 I2]; [intros x Hx; apply Hn; cbn; auto|].
  assert (0 <= fst g)%R by (apply Hn; cbn; auto). pose proof (Hp (snd g)). nra.
Qed.
Lemma total_le c m : (forall x : comp, In x c -> (fst x <= m)%R) -> (total c <= INR (length c) * m)%R.
Proof.
  induction c as [|g c IH]; intros H; [cbn; lra|]. cbn [total]. change (length (g :: c)) with (S (length c)). rewrite S_INR.
  assert (fst g <= m)%R by (apply H; cbn; auto). assert (total c <= INR (length c) * m)%R by (apply IH; intros; apply H; cbn; auto). lra.
Qed.
Lemma cross_le (c rest : list comp) : heaviest c rest -> (INR (length c) * total rest <= INR (length rest) * total c)%R.
Proof.
  intros [_ H]. induction c as [|g c IH]; [cbn; lra|]. cbn [total]. change (length (g :: c)) with (S (length c)). rewrite S_INR.
  assert (total rest <= INR (length rest) * fst g)%R by (apply total_le; intros; apply H; cbn; auto).
  assert (INR (length c) * total rest <= INR (length rest) * total c)%R by (apply IH; intros; apply H; cbn; auto). lra.
Qed.

Lemma join_loss (sortf : list comp -> list comp) cw_lim w (pdfs : list (list comp)) c' eta :
  valid_sort sortf -> length w <= length pdfs ->
  (forall x, In x w -> (0 <= x)%R) -> (forall p, In p pdfs -> nonneg p) ->
  join sortf cw_lim w pdfs = Ok (c', eta) -> c' <> [] ->
  let W := rsum (fun wp => fst wp * total (snd wp))%R (combine w pdfs) in
  let n := length (scaled w pdfs) in
  exists lost, (0 <= lost < 1)%R /\ (0 < W)%R /\ eta = ((1 - lost) * W)%R /\
  (forall phi, (forall g, (0 <= phi g <= 1)%R) ->
     (Rabs (prob phi c' - rsum (fun wp => fst wp * prob phi (snd wp)) (combine w pdfs) / W) <= lost)%R) /\
  (length c' = n -> forall phi, (prob phi c' = rsum (fun wp => fst wp * prob phi (snd wp)) (combine w pdfs) / W)%R) /\
  length c' <= n /\ (lost * INR n <= INR (n - length c'))%R /\
  (length c' = MAX_COMPONENTS \/ (lost <= cw_lim * INR (n - length c'))%R).
Proof.
  intros Hs Hl Hw Hp E Hne W n. unfold join in E.
  destruct (join_raw_ok sortf cw_lim w pdfs Hs Hl Hw Hp) as (c & rest & Ec & Hperm & Hh & _ & Hr & _).
  rewrite Ec in E. cbn [bind] in E. injection E as E.
  assert (Hc : (1 / 100000000 < total c)%R /\ eta = total c /\ length c' = length c).
  { destruct (normalize_ok _ _ _ E) as [(H1 & H2 & H3 & _)|(_ & H2 & _)]; [|congruence].
    split; auto. split; auto. apply (f_equal (@length _)) in H3. rewrite !map_length in H3. auto. }
  destruct Hc as (Ht & He & Hlc). pose proof (Permutation_length Hperm) as Hpl. rewrite app_length in Hpl. fold n in Hpl.
  assert (HW : (total c + total rest = W)%R) by (rewrite <- total_app, (total_perm _ _ Hperm); apply total_scaled).
  assert (Hn : nonneg (c ++ rest)) by (intros g Hg; apply (scaled_nonneg w pdfs Hw Hp); eapply Permutation_in; eauto).
  assert (Hnc : nonneg c) by (intros g Hg; apply Hn, in_or_app; auto). assert (Hnr : nonneg rest) by (intros g Hg; apply Hn, in_or_app; auto).
  pose proof (total_nonneg _ Hnr) as Hr0. assert (HW0 : (0 < W)%R) by lra.
  assert (Hex : forall f, rsum (fun wp => fst wp * prob f (snd wp))%R (combine w pdfs) = (prob f c + prob f rest)%R).
  { intros f. rewrite !prob_expect, <- expect_app, (expect_perm f _ _ Hperm), expect_scaled. apply rsum_ext. intros; rewrite prob_expect; auto. }
  assert (Hc' : forall f, prob f c' = (prob f c / total c)%R) by (intros f; rewrite !prob_expect; apply (expect_normalised f _ _ _ E Ht)).
  exists (total rest / W)%R.
  assert (L0 : (0 <= total rest / W)%R) by (apply Rmult_le_pos; auto; left; apply Rinv_0_lt_compat; auto).
  split; [split; auto; apply (Rmult_lt_reg_r W); auto; unfold Rdiv; rewrite Rmult_assoc, Rinv_l by lra; lra|].
  split; auto. split; [rewrite He; field_simplify; lra|]. split; [|split; [|split; [lia|split]]].
  - intros phi Hphi. rewrite Hc', Hex. pose proof (prob_within phi c Hnc Hphi) as [A1 A2]. pose proof (prob_within phi rest Hnr Hphi) as [B1 B2].
    pose proof (shared_part (prob phi c) (prob phi rest) 0 (total c - prob phi c) (total rest - prob phi rest) 0) as S.
    replace (total c)%R with (prob phi c + 0 + (total c - prob phi c + 0))%R at 1 by ring.
    replace W with (prob phi c + prob phi rest + (total c - prob phi c + (total rest - prob phi rest)))%R by lra.
    rewrite <- (Rplus_0_r (prob phi c)) at 1. eapply Rle_trans; [apply S; lra|]. right. f_equal.
    rewrite Rplus_0_l, Rmax_left; lra.
  - intros L phi. assert (rest = []) as -> by (destruct rest; auto; cbn in Hpl; lia). rewrite Hc', Hex, <- HW. cbn. rewrite !Rplus_0_r. auto.
  - pose proof (cross_le c rest Hh) as X. rewrite Hlc. replace (n - length c) with (length rest) by lia. rewrite <- Hpl, plus_INR.
    apply (Rmult_le_reg_r W); auto. replace (total rest / W * (INR (length c) + INR (length rest)) * W)%R with (total rest * (INR (length c) + INR (length rest)))%R by (field; lra).
    rewrite <- HW. lra.
  - rewrite Hlc. replace (n - length c) with (length rest) by lia. destruct Hr as [->|[Hr|(y & Hy & Hz & Hb)]]; auto.
    + right. cbn. unfold Rdiv. lra.
    + right. assert (Hy0 : (0 <= fst y)%R) by (apply Hnr, Hy).
      destruct (below_true cw_lim (fst y) (total c + fst y)) as [Q1 Q2]; auto; try lra.
      assert (Hyr : (fst y <= total rest)%R).
      { clear - Hy Hnr. induction rest as [|z rest IH]; [destruct Hy|]. cbn. assert (0 <= fst z)%R by (apply Hnr; cbn; auto).
        assert (0 <= total rest)%R by (apply total_nonneg; intros g Hg; apply Hnr; cbn; auto).
        destruct Hy as [->|Hy]; [lra|]. assert (fst y <= total rest)%R by (apply IH; auto; intros g Hg; apply Hnr; cbn; auto). lra. }
      assert (Q : (fst y <= cw_lim * W)%R).
      { assert (0 <= cw_lim)%R by (destruct (Rle_dec 0 cw_lim); auto; nra). eapply Rle_trans; [left; apply Q2|]. apply Rmult_le_compat_l; lra. }
      pose proof (total_le rest (cw_lim * W)) as T. assert (T' : (total rest <= INR (length rest) * (cw_lim * W))%R).
      { apply T. intros x Hx. specialize (Hz x Hx). lra. }
      apply (Rmult_le_reg_r W); auto. unfold Rdiv. rewrite Rmult_assoc, Rinv_l by lra. lra.
Qed.
End Loss.
