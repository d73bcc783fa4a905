(** C100: Bayes' rule for mixtures.  C101: what joining drops. *)
From Coq Require Import Reals List Lra Lia Permutation.
From mathcomp Require Import all_ssreflect ssralg ssrnum zmodp matrix mxalgebra.
From Verif Require Import Res Scalar GM GMSpec GMProofs TrackerOps Kalman KalmanSpec KalmanProofs KalmanMain RField KalmanWitness GaussOps CovSpec
  MixSpec MixProofs LossSpec LossProofs PropsGM PropsTrackerOps PropsCov.
Set Implicit Arguments. Unset Strict Implicit. Unset Printing Implicit Defensive.
Local Open Scope ring_scope.

(** The corrected mixture has the density that Bayes' rule gives: at every state
    the density before, each component weighted by the probability of its
    detection, times the likelihood of the report given that state, divided by the
    sum that correct returns. *)
Theorem C100_mixture_bayes : forall BB ll2ne ne2ll gbox bof bll rlo rhi (s : sensor (BB := BB)) id j z,
  let op := @gauss_ops BB ll2ne ne2ll gbox bof bll rlo rhi in
  @KalmanSpec.pd RF _ (zP z) ->
  let detected i := Rmult (sn_pD s) (Rdiv (INR (sn_hits s id j i)) 1000) in
  let likely y := Rdiv (gaussian_pdf (obs *m y) (zP z) (zx z)) (zkappa z) in
  forall c c' eta, (forall g, In g c -> good_gauss (snd g)) -> gm_correct (upd op s id j z) c = (c', eta) -> c' <> nil ->
  Rlt 0 eta /\ (forall y, Rmult eta (density c' y) = Rmult (weighted_density detected c y) (likely y)) /\
  forall d, (forall i, (i < length c)%N -> detected i = d) ->
    forall y, Rmult eta (density c' y) = Rmult d (Rmult (density c y) (likely y)).
Proof. exact: mixture_bayes. Qed.
Print Assumptions C100_mixture_bayes.

(** Joining mixtures: the probability that the result gives to anything differs
    from that of the weighted mixture of all by at most the share of weight
    dropped.  The share is at most the share of components dropped, and at most
    cw_lim for each of them unless 200 were kept; nothing changes if none was
    dropped. *)
Theorem C101_join_loss : forall (G : Type) sortf cw_lim w (pdfs : list (list (comp (G := G)))) c' eta,
  valid_sort sortf -> Peano.le (length w) (length pdfs) ->
  (forall x, In x w -> Rle 0 x) -> (forall p, In p pdfs -> nonneg p) ->
  join sortf cw_lim w pdfs = Ok (c', eta) -> c' <> nil ->
  let W := rsum (fun wp => Rmult (fst wp) (total (snd wp))) (List.combine w pdfs) in
  let n := length (scaled w pdfs) in
  exists lost, (Rle 0 lost /\ Rlt lost 1) /\ Rlt 0 W /\ eta = Rmult (Rminus 1 lost) W /\
  (forall phi, (forall g, Rle 0 (phi g) /\ Rle (phi g) 1) ->
     Rle (Rabs (Rminus (prob phi c') (Rdiv (rsum (fun wp => Rmult (fst wp) (prob phi (snd wp))) (List.combine w pdfs)) W))) lost) /\
  (length c' = n -> forall phi, prob phi c' = Rdiv (rsum (fun wp => Rmult (fst wp) (prob phi (snd wp))) (List.combine w pdfs)) W) /\
  Peano.le (length c') n /\ Rle (Rmult lost (INR n)) (INR (n - length c')) /\
  (length c' = 200%N \/ Rle lost (Rmult cw_lim (INR (n - length c')))).
Proof. exact: @join_loss. Qed.
Print Assumptions C101_join_loss.

(** Two components with unit covariance, of which the sensor sees nine in ten, and
    a report at the first whose clutter density is its likelihood. *)
Definition m_gauss (a : R) : gauss := Gauss (const_mx a) 1%:M.
Definition m_mix : list (R * gauss) := (Rdiv 1 2, m_gauss 0) :: (Rdiv 1 2, m_gauss 1) :: nil.

Lemma klik_pos z g : good_gauss g -> @KalmanSpec.pd RF _ (zP z) -> Rlt 0 (klik z g).
Proof.
move=> Hg Hz. rewrite /klik /likelihood. apply: Rmult_lt_0_compat; first exact: exp_pos. apply: sqrt_lt_R0.
have S : @KalmanSpec.pd RF _ (innovation obs (as_gaussian g) (as_report z)) by apply: (@innovation_pd RF _ _ obs (as_gaussian g) (as_report z)); [exact: pd_psd|].
have D : (0 : RF) < \det (invmx (innovation obs (as_gaussian g) (as_report z))) by apply: pd_det; apply: pd_inv.
have Q : (0 : RF) < (2%:R * (Rtrigo1.PI : RF)) ^+ 2.
  by apply: Num.Theory.exprn_gt0; apply: Num.Theory.mulr_gt0; [rewrite Num.Theory.ltr0n | apply/rltP; exact: PI_RGT_0].
by have /rltP := Num.Theory.divr_gt0 D Q.
Qed.

Example C100_hypotheses_met : exists z c' eta,
  @KalmanSpec.pd RF _ (zP z) /\ (forall g, In g m_mix -> good_gauss (snd g)) /\
  gm_correct (upd u_op ex_sensor 0%num 0 z) m_mix = (c', eta) /\ c' <> nil /\ Rle (Rdiv 45 100) eta.
Proof.
have G a : good_gauss (m_gauss a) by exact: one_pd.
pose z0 := u_rep 0. have Hz : @KalmanSpec.pd RF _ (zP z0) by exact: one_pd.
have K := klik_pos (G 0) Hz.
pose z := Rep (zx z0) (zP z0) (mkposreal _ K) 1%:M.
case E : (gm_correct (upd u_op ex_sensor 0%num 0 z) m_mix) => [c' eta].
exists z, c', eta. split; first exact: Hz. split; first by move=> g [<-|[<-|[]]]; exact: G. split; first exact: E.
have := E; rewrite /gm_correct => /(@normalize_ok _ _ _ _).
set cs := List.map _ _.
have T : Rle (Rdiv 45 100) (total cs).
  have D i : TrackerOps.pd ex_sensor 0%num 0 i = Rdiv 9 10.
    rewrite /TrackerOps.pd. have -> : INR (sn_hits ex_sensor 0%num 0 i) = IZR 1000 by exact: (INR_IZR_INZ 1000).
    change (Rmult (Rdiv 9 10) (Rdiv 1000 1000) = Rdiv 9 10). field.
  have U i w a : fst (upd u_op ex_sensor 0%num 0 z i (w, m_gauss a)) = Rmult w (Rdiv (Rmult (Rdiv 9 10) (klik z0 (m_gauss a))) (klik z0 (m_gauss 0))).
    by rewrite -(D i).
  have P i w : Rle 0 w -> Rle 0 (fst (upd u_op ex_sensor 0%num 0 z i (w, m_gauss 1))).
    move=> Hw; rewrite U. apply: Rmult_le_pos; first exact: Hw. apply: Rmult_le_pos; last by left; apply: Rinv_0_lt_compat; exact: K.
    apply: Rmult_le_pos; first by lra. by left; apply: klik_pos; [exact: G | exact: Hz].
  have E0 : fst (upd u_op ex_sensor 0%num 0 z 0%N (Rdiv 1 2, m_gauss 0)) = Rdiv 45 100.
    rewrite U. field. by apply: Rgt_not_eq; exact: K.
  have -> : total cs = Rplus (fst (upd u_op ex_sensor 0%num 0 z 0%N (Rdiv 1 2, m_gauss 0))) (Rplus (fst (upd u_op ex_sensor 0%num 0 z 1%N (Rdiv 1 2, m_gauss 1))) 0) by [].
  have Q : Rle 0 (Rdiv 1 2) by lra. have := P 1%N _ Q. rewrite E0. lra.
move=> [[H1 [H2 [_ [_ H4]]]]|[H1 _]]; last by lra.
split; last by rewrite H2.
by move=> C; rewrite C /= in H4; lra.
Qed.

(** Joining three components with cw_lim 1/2. *)
Example C101_hypotheses_met : exists c' eta,
  Peano.le (length ex_w) (length ex_pdfs) /\ (forall x, In x ex_w -> Rle 0 x) /\ (forall p, In p ex_pdfs -> nonneg p) /\
  join isort (Rdiv 1 2) ex_w ex_pdfs = Ok (c', eta) /\ c' <> nil.
Proof.
have [H1 [H2 [H3 _]]] := join_hypotheses_met.
have H3' p (H : In p ex_pdfs) := proj1 (H3 p H).
have [c [rest [E [Hp [_ [_ [Hr _]]]]]]] := @join_raw_ok _ isort (Rdiv 1 2) ex_w ex_pdfs (isort_valid nat) H1 H2 H3'.
case En : (normalize c) => [c' eta]. exists c', eta. split=> //. split=> //. split=> //.
split; first by rewrite /join E /= En.
have Hall g : In g (c ++ rest)%list -> Rle (Rdiv 3 40) (fst g).
  move=> Hg; have := Permutation_in g Hp Hg. by move=> /= [<-|[<-|[<-|[]]]] /=; lra.
have Hc : c <> nil.
  move=> C; subst c. case: Hr => [Hr|[Hr|[y [Hy [_ Hb]]]]]; first by subst rest; have := Permutation_length Hp.
    by discriminate Hr.
  have Y := Hall y Hy. move: Hb; rewrite /= => Hb. have [] := @below_true (Rdiv 1 2) (fst y) (Rplus 0 (fst y)) _ _ Hb; lra.
have Tc : Rle (Rdiv 3 40) (total c).
  case: c Hc Hall {E En Hp Hr} => [|g c] // _ Hall /=.
  have := Hall g (or_introl erefl).
  have : Rle 0 (total c) by apply: total_nonneg => h Hh; have := Hall h (or_intror (in_or_app _ _ _ (or_introl Hh))); lra.
  lra.
have [[_ [_ [_ [_ H4]]]]|[H4 _]] := @normalize_ok _ _ _ _ En; last by lra.
by move=> C; rewrite C /= in H4; lra.
Qed.
