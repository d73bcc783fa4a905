(** Specification of whole calls: what a prediction and a correction make of the
    tracker's targets, and of one target or cluster whose densities are Gaussian
    mixtures. *)
From Coq Require Import List Arith NArith Bool Reals Permutation.
Import ListNotations.
From Verif Require Import Res Scalar RTree RTreeSpec Murty Cluster ClusterSpec GM GMSpec Tracker TrackerSpec TrackerOps TrackerOpsSpec.
Local Open Scope nat_scope.

(** ** Calls *)
Section Calls.
Context {P Rep : Type}.
Variable box : P -> rect (ext R).
Variable covnorm : P -> ext R.
Variables r_lim cov_lim rB_max : R.
Notation tracker := (tracker (P := P)).
Notation target := (target (P := P)).
Notation correction := (correction (P := P) (Rep := Rep)).

(** The targets born of the reports [all] (data and birth weight of each report
    after the clusters' updates) with the cluster ids [cids]: existence
    probability, density, cluster id, is_new and time of birth. *)
Definition newborns (s : correction) (cids : list nat) (all : list (Rep * R)) : list (ext R * P * nat * bool * R) :=
  let sum := Rsum (map snd all) in
  if Rle_dec r_lim sum
  then flat_map (fun kd => let nr := (snd (snd kd) * s_lambdaB s / sum)%R in
         if Rle_dec r_lim nr then [(Fin (Rmin nr rB_max), s_init s (fst (snd kd)), fst kd, true, s_time s)] else [])
       (combine cids all)
  else [].

(** [st'] is the result of the correction [s] of [st]: clusters [cls] as C25
    demands; every cluster is updated once from its reports and targets (which
    have only got their cluster ids before); exactly the fit ones among the
    updated targets remain, all others are as before; then the newborns. *)
Definition correction_result (s : correction) (st st' : tracker) : Prop :=
  exists inview st1 scan cls (newt : nat -> option target) (all : list (Rep * R)) old new,
    (forall a, In a inview <-> exists t, In (a, t) (live st) /\ meets (s_fov s) (box (tg_pdf t)) /\ s_sees s (tg_pdf t) = true) /\
    clustering box (s_rbox s) inview st (map (fun r => mkReport r NaN 0) (s_scan s)) st1 scan cls /\
    length all = length (s_scan s) /\
    (forall c, In c cls -> exists ts rs ts' dws,
       map Some ts = map (heap st1) (cl_targets c) /\ map Some rs = map (nth_error (s_scan s)) (cl_reports c) /\
       s_update s rs ts = Some (ts', map (fun dw => (fst dw, Fin (snd dw))) dws) /\
       map Some ts' = map newt (cl_targets c) /\ map Some dws = map (nth_error all) (cl_reports c)) /\
    live st' = old ++ new /\
    (forall a t', In (a, t') old <-> exists t, In (a, t) (live st) /\
       ((exists c, In c cls /\ In a (cl_targets c)) -> newt a = Some t' /\ fit covnorm r_lim cov_lim t') /\
       (~ (exists c, In c cls /\ In a (cl_targets c)) -> t' = t)) /\
    Permutation (map (fun x => (tg_r (snd x), tg_pdf (snd x), tg_cid (snd x), tg_new (snd x), tg_t0 (snd x))) new)
      (newborns s (map rp_cid scan) all).
End Calls.

(** ** One target, one cluster *)
Section Values.
Context {G BB Rep : Type}.
Variable op : ops G BB Rep.
Variable pm : params.
Notation comp := (comp (G := G)).
Notation pdf := (pdf (G := G) (BB := BB)).
Notation target := (target (P := pdf)).

(** The mean position. *)
Definition position (c : list comp) : point :=
  (rsum (fun g => fst g * g_x0 op (snd g))%R c, rsum (fun g => fst g * g_x1 op (snd g))%R c).

(** The same weights, the rest of each component by [f]. *)
Definition carried (f : G -> G) (c c' : list comp) : Prop :=
  Forall2 (fun g g' => fst g' = fst g /\ snd g' = f (snd g)) c c'.

(** The boxes of a target with the components [c] in the frame of [o]: the
    smallest box around the components' boxes, by its two corners in global
    coordinates. *)
Definition boxed (o : point) (c : list comp) (p : pdf) : Prop :=
  c <> [] -> (forall g, In g c -> point_in (g_x0 op (snd g)) (g_x1 op (snd g)) (g_box op (snd g))) ->
  p_bbox p = b_ll op o (b_of op c) /\
  exists b, (forall g, In g c -> inside_box (g_box op (snd g)) b) /\
    (forall b', (forall g, In g c -> inside_box (g_box op (snd g)) b') -> inside_box b b') /\
    let lo := ne2ll op (GM.min0 b, GM.min1 b) o in
    let hi := ne2ll op (GM.max0 b, GM.max1 b) o in
    p_aabb p = mkAabb (Rmin (fst lo) (fst hi)) (Rmin (snd lo) (snd hi)) (Rmax (fst lo) (fst hi)) (Rmax (snd lo) (snd hi)).

(** Probability of survival: CV raises pS to the time step. *)
Definition survives (m : model) (dT x : R) : Prop :=
  match m with
  | CV pS _ => (dT = 0%R -> x = 1%R) /\ (dT <> 0%R -> pS = 0%R -> x = 0%R) /\ (dT <> 0%R -> pS <> 0%R -> x = Rpower pS dT)
  | NM pS _ => x = pS
  end.
Definition motion (m : model) (dT : R) : G -> G :=
  match m with CV _ q => g_cv op q dT | NM _ Q => g_nm op Q end.

Definition predicted (m : model) (time last : R) (t t' : target) : Prop :=
  let dT := ((time - last) / tscale pm)%R in
  let c := p_c (tg_pdf t) in
  let o := position c in
  tg_id t' = tg_id t /\ tg_cid t' = tg_cid t /\ tg_new t' = tg_new t /\ tg_t0 t' = tg_t0 t /\
  (forall r, tg_r t = Fin r -> exists x, survives m dT x /\ tg_r t' = Fin (r * x)%R) /\
  exists c1, carried (fun g => motion m dT (g_local op o g)) c c1 /\
    carried (g_global op o) c1 (p_c (tg_pdf t')) /\ boxed o c1 (tg_pdf t').

(** Probability that the sensor detects component [i] of target [id]; [j]: the
    report that is being looked at. *)
Definition detects (s : sensor (BB := BB)) (id : N) (j i : nat) : R := (sn_pD s * INR (sn_hits s id j i) / 1000)%R.

(** The components after report [z] (number [j]), weighted by the likelihood. *)
Fixpoint weighed (s : sensor (BB := BB)) (id : N) (j : nat) (z : Rep) (i : nat) (c : list comp) : list comp :=
  match c with
  | [] => []
  | g :: c => ((fst g * detects s id j i * lik op z (snd g) / r_kappa op z)%R, gain op z (snd g)) :: weighed s id j z (S i) c
  end.
Fixpoint miss (s : sensor (BB := BB)) (id : N) (j i : nat) (c : list comp) : R :=
  match c with [] => 0%R | g :: c => (fst g * detects s id j i + miss s id j (S i) c)%R end.

(** What the association of the reports [rs] needs to know of the target [t]
    with components [c]: r, the likelihood of each report and of none; [cs]: the
    normalised densities after each report. *)
Definition weighs (s : sensor (BB := BB)) (rs : list Rep) (t : target) (c : list comp) (tin : target_in) (cs : list (list comp)) : Prop :=
  tg_r t = Fin (t_r tin) /\ length cs = length rs /\ length (t_lik tin) = length rs /\
  (forall j z, nth_error rs j = Some z -> normalised (weighed s (tg_id t) j z 0 c) (nth j cs []) (nth j (t_lik tin) 0%R)) /\
  t_miss tin = (1 - miss s (tg_id t) (length rs) 0 c)%R.

(** The mixture of [pdfs] with weights [w], cut to the heaviest components and
    normalised. *)
Definition mixed (w : list R) (pdfs : list (list comp)) (c' : list comp) : Prop :=
  exists c rest eta, Permutation (c ++ rest) (scaled w pdfs) /\ heaviest c rest /\ Peano.le (length c) 200 /\
    (rest = [] \/ length c = 200 \/
     exists y, In y rest /\ (forall z, In z rest -> (fst z <= fst y)%R) /\ (fst y < cw_lim pm * (total c + fst y))%R) /\
    (forall a x b, c = a ++ x :: b -> (0 < total a + fst x)%R -> (cw_lim pm * (total a + fst x) <= fst x)%R) /\
    normalised c c' eta.

(** The hypotheses used: the best ones, at most nhyp_max, all of some weight. *)
Definition best_hypotheses (N : nat) (tins : list target_in) (ds : list (list nat)) : Prop :=
  NoDup ds /\ Peano.le 1 (length ds) /\ (forall d, In d ds -> hypothesis N tins d) /\
  (forall d h, In d ds -> hypothesis N tins h -> ~ In h ds -> (weight N tins h <= weight N tins d)%R) /\
  (Peano.le (length ds) 1 \/ (INR (length ds - 1) < nhyp_max pm)%R) /\
  (forall h, hypothesis N tins h -> ~ In h ds ->
     (nhyp_max pm <= INR (length ds))%R \/ (weight N tins h < w_lim pm * sum_over (weight N tins) ds)%R).

(** [(ts', rs')] is the correction of a cluster of the reports [rs] and targets
    [ts]: the frame [o] of their mean position; per target the association
    inputs; the marginals [p i j] of the best hypotheses; each target's
    existence probability is the sum of its marginals and its density the mixture
    of the densities after each report and (last) the old one; a report's birth
    weight is the probability that it belongs to no target. *)
Definition cluster_result (s : sensor (BB := BB)) (rs : list Rep) (ts ts' : list target) (rs' : list (Rep * ext R)) : Prop :=
  let n := length rs in
  let places := map (r_pos op) rs ++ map (fun t => position (p_c (tg_pdf t))) ts in
  let o := (rsum fst places / INR (length places), rsum snd places / INR (length places))%R in
  let local := map (r_local op o) rs in
  exists (frames : list (list comp)) (tins : list target_in) (css : list (list (list comp))) (ds : list (list nat)),
    let p := marginal n (weight n tins) ds in
    Forall2 (fun t c => carried (g_local op o) (p_c (tg_pdf t)) c) ts frames /\
    length tins = length ts /\ length css = length ts /\ length ts' = length ts /\
    (ts <> [] -> best_hypotheses n tins ds) /\
    (forall i t c, nth_error ts i = Some t -> nth_error frames i = Some c -> exists tin cs t' c',
       nth_error tins i = Some tin /\ nth_error css i = Some cs /\ nth_error ts' i = Some t' /\
       weighs s local t c tin cs /\
       tg_id t' = tg_id t /\ tg_cid t' = tg_cid t /\ tg_new t' = false /\ tg_t0 t' = tg_t0 t /\
       carried (g_global op o) c' (p_c (tg_pdf t')) /\ boxed o c' (tg_pdf t') /\
       let sum := sum_over (p i) (seq 0 (n + 1)) in
       ((sum < 1 / 1000000)%R -> tg_r t' = Fin 0%R /\ c' = c) /\
       ((1 / 1000000 <= sum)%R -> tg_r t' = Fin sum /\ mixed (map (p i) (seq 0 (n + 1))) (cs ++ [c]) c')) /\
    length rs' = n /\
    (forall j z, nth_error rs j = Some z ->
       nth_error rs' j = Some (r_global op o (r_local op o z), Fin (1 - sum_over (fun i => p i j) (seq 0 (length ts)))%R)).
End Values.
