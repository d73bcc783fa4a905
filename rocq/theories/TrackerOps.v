(** What a prediction and a correction do to targets whose density is a Gaussian
    mixture: the functions that Tracker.v leaves open, composed of GM.v and
    Cluster.v as include/lmb.hpp, target.hpp, models.hpp, sensors.hpp and
    cluster.hpp do.

    Operations on a single Gaussian (its mean and covariance), on a report and on
    coordinates are members of the record [ops]; the theorems say what they need
    of them.  Existence probabilities that are no numbers are not modelled further
    (the numerical part of the correction then has no result); they never occur. *)
From Coq Require Import List Arith NArith Bool Reals.
Import ListNotations.
From Verif Require Import Res Scalar RTree Murty Cluster GM Tracker.
Local Open Scope nat_scope.

(** Params, params.hpp. *)
Record params := mkParams {
  w_lim : R; r_lim : R; nhyp_max : R; rB_max : R; cw_lim : R; cov_lim : R; tscale : R }.

(** cf::LL and cf::NE, cf.hpp:9-11. *)
Definition point : Type := R * R.

(** [G]: a Gaussian without its weight.  [BB]: a BBox.  [Rep]: a report. *)
Record ops (G BB Rep : Type) := mkOps {
  (* coordinates: cf::ne2ll, cf.hpp:282-286 (point, origin) *)
  ne2ll : point -> point -> point;
  (* gaussian.hpp: x[0], x[1], aabbox(params->nstd), transform_to_local, transform_to_global (with the origin) *)
  g_x0 : G -> R;
  g_x1 : G -> R;
  g_box : G -> aabb;
  g_local : point -> G -> G;
  g_global : point -> G -> G;
  (* linear_update with the matrices of CV (q, dT) and NM (Q), models.hpp:18-41, 67-69 *)
  g_cv : R -> R -> G -> G;
  g_nm : list (list R) -> G -> G;
  (* BBox(pos(), poscov(), nstd) of a mixture and BBox::llbbox, bbox.hpp:129-132, 139-147 *)
  b_of : list (comp (G := G)) -> BB;
  b_ll : point -> BB -> BB;
  (* poscov().norm() of a mixture *)
  c_norm : list (comp (G := G)) -> ext R;
  (* a report: pos(), transform_to_local, transform_to_global, llaabbox(), kappa, report.hpp:17-50 *)
  r_pos : Rep -> point;
  r_local : point -> Rep -> Rep;
  r_global : point -> Rep -> Rep;
  r_box : Rep -> rect (ext R);
  r_kappa : Rep -> R;
  (* z.likelihood(dz, Dinv), and the update of mean and covariance, gaussian.hpp:33-39 *)
  lik : Rep -> G -> R;
  gain : Rep -> G -> G;
  (* the Gaussian of pdf_init1, sensors.hpp:66-76 *)
  r_init : Rep -> G }.
Arguments ne2ll {G BB Rep}. Arguments g_x0 {G BB Rep}. Arguments g_x1 {G BB Rep}. Arguments g_box {G BB Rep}.
Arguments g_local {G BB Rep}. Arguments g_global {G BB Rep}. Arguments g_cv {G BB Rep}. Arguments g_nm {G BB Rep}.
Arguments b_of {G BB Rep}. Arguments b_ll {G BB Rep}. Arguments c_norm {G BB Rep}. Arguments r_pos {G BB Rep}.
Arguments r_local {G BB Rep}. Arguments r_global {G BB Rep}. Arguments r_box {G BB Rep}. Arguments r_kappa {G BB Rep}.
Arguments lik {G BB Rep}. Arguments gain {G BB Rep}. Arguments r_init {G BB Rep}.

(** std::pow for a base that is not negative. *)
Definition powf (x y : R) : ext R :=
  if Reqb y 0 then Fin 1%R
  else if Rltb x 0 then NaN
  else if Reqb x 0 then (if Rltb 0 y then Fin 0%R else PInf)
  else Fin (Rpower x y).

(** The motion models CV and NM, models.hpp:7-13, 59-64. *)
Inductive model := CV (pS q : R) | NM (pS : R) (Q : list (list R)).

Section Ops.
Context {G BB Rep : Type}.
Variable op : ops G BB Rep.
Variable pm : params.
Notation comp := (comp (G := G)).
(** std::exp, the choice of std::priority_queue among equals, std::sort. *)
Variable expf : R -> R.
Variable pick : nat -> list (mstate (T := ext R)) -> nat.
Variable sortf : list comp -> list comp.

(** GM's members c, bbox, aabbox, origin, gm.hpp:27-31 (eta is always computed
    before it is used). *)
Record pdf := mkPdf { p_c : list comp; p_bbox : BB; p_aabb : aabb; p_origin : point }.
Notation target := (target (P := pdf)).
Notation correction := (correction (P := pdf) (Rep := Rep)).
Notation call := (call (P := pdf) (Rep := Rep)).

(** GM::pos, gm.hpp:252-254. *)
Definition p_pos (c : list comp) : point := (mean (g_x0 op) c, mean (g_x1 op) c).

(** AABBox::llaabbox, bbox.hpp:91-96, with the constructor 30-33. *)
Definition llaabbox (o : point) (b : aabb) : aabb :=
  let a := ne2ll op (GM.min0 b, GM.min1 b) o in
  let c := ne2ll op (GM.max0 b, GM.max1 b) o in
  mkAabb (Rmin (fst a) (fst c)) (Rmin (snd a) (snd c)) (Rmax (fst a) (fst c)) (Rmax (snd a) (snd c)).

(** GM::transform_to_local, gm.hpp:290-296. *)
Definition pdf_local (o : point) (p : pdf) : pdf :=
  mkPdf (gm_linear (g_local op o) (p_c p)) (p_bbox p) (p_aabb p) o.

(** GM::transform_to_global, gm.hpp:303-310, with update_local_bbox, 57-77. *)
Definition pdf_global (p : pdf) : pdf :=
  let o := p_origin p in
  let bb := match p_c p with [] => p_bbox p | _ => b_of op (p_c p) end in
  let aa := match local_aabbox (g_x0 op) (g_x1 op) (g_box op) (p_c p) with Some b => b | None => p_aabb p end in
  mkPdf (gm_linear (g_global op o) (p_c p)) (b_ll op o bb) (llaabbox o aa) o.

(** GM::llaabbox, gm.hpp:286-288, as handed to the index (targettree.hpp:41, 56).
    The corners of a box are ordered since its constructor orders them (bbox.hpp:
    29-32); here they are ordered on reading, which changes nothing for the boxes
    of [pdf_global] (lemma [p_box_global]) and these are the only ones handed to
    the index. *)
Definition p_box (p : pdf) : rect (ext R) :=
  let b := p_aabb p in
  mkRect (Fin (Rmin (GM.min0 b) (GM.max0 b))) (Fin (Rmin (GM.min1 b) (GM.max1 b)))
         (Fin (Rmax (GM.min0 b) (GM.max0 b))) (Fin (Rmax (GM.min1 b) (GM.max1 b))).
Definition p_norm (p : pdf) : ext R := c_norm op (p_c p).

(** ** Prediction *)

(** The factor of r and the move of a component: CV, models.hpp:16-43, and NM,
    67-70. *)
Definition survival (m : model) (time last : R) : ext R :=
  match m with
  | CV pS _ => powf pS ((time - last) / tscale pm)
  | NM pS _ => Fin pS
  end.
Definition move (m : model) (time last : R) : G -> G :=
  match m with
  | CV _ q => g_cv op q ((time - last) / tscale pm)%R
  | NM _ Q => g_nm op Q
  end.

(** Lines 69, 73 and 77 of SILMB::predict for one target: transform_to_local
    (gm.hpp:298-301), Target_::predict (target.hpp:172-181), transform_to_global. *)
Definition predict_target (m : model) (time last : R) (t : target) : target :=
  let p := pdf_local (p_pos (p_c (tg_pdf t))) (tg_pdf t) in
  let c := gm_linear (move m time last) (p_c p) in
  let r := nmul extR (tg_r t) (survival m time last) in
  let '(c, eta) := normalize c in
  mkTarget (tg_id t) (nmul extR r (Fin eta))
    (pdf_global (mkPdf c (p_bbox p) (p_aabb p) (p_origin p))) (tg_cid t) (tg_new t) (tg_t0 t).

(** ** Correction *)

(** PositionSensor, sensors.hpp:22-28, and its random numbers: [sn_hits id j i]
    of the 1000 samples of component [i] of target [id] fall into the field of
    view when report [j] (or, for the number of reports, the missed detection) is
    processed (gaussian.hpp:122-134). *)
Record sensor := mkSensor {
  sn_fov : rect (ext R);
  sn_sees : BB -> bool;
  sn_lambdaB : R;
  sn_pD : R;
  sn_hits : N -> nat -> nat -> nat }.

(** PositionSensor::pD, sensors.hpp:43-46. *)
Definition pd (s : sensor) (id : N) (j i : nat) : R := (sn_pD s * (INR (sn_hits s id j i) / 1000))%R.

(** Gaussian_::correct, gaussian.hpp:31-42, of component [i]. *)
Definition upd (s : sensor) (id : N) (j : nat) (z : Rep) (i : nat) (g : comp) : comp :=
  ((fst g * (pd s id j i * lik op z (snd g) / r_kappa op z))%R, gain op z (snd g)).

(** pdfs[j] and its eta after correct, target.hpp:126-130 (pdf_init2 returns
    immediately). *)
Definition against (s : sensor) (rs : list Rep) (t : target) : list (list comp * R) :=
  map (fun jz => gm_correct (upd s (tg_id t) (fst jz) (snd jz)) (p_c (tg_pdf t))) (combine (seq 0 (length rs)) rs).

(** The row of a target as Cluster.v takes it: target.hpp:111-141. *)
Definition target_input (s : sensor) (rs : list Rep) (t : target) : option target_in :=
  match tg_r t with
  | Fin r => Some (mkTin r (map snd (against s rs t)) (gm_missed (pd s (tg_id t) (length rs)) (p_c (tg_pdf t))))
  | _ => None
  end.

Fixpoint all_some {A} (l : list (option A)) : option (list A) :=
  match l with
  | [] => Some []
  | o :: l => match o, all_some l with Some x, Some xs => Some (x :: xs) | _, _ => None end
  end.

(** Cluster_::center_of_mass, cluster.hpp:156-162. *)
Definition center (rs : list Rep) (ts : list target) : point :=
  let ps := map (r_pos op) rs ++ map (fun t => p_pos (p_c (tg_pdf t))) ts in
  let n := INR (length rs + length ts) in
  (fold_left (fun a p => a + fst p)%R ps 0%R / n, fold_left (fun a p => a + snd p)%R ps 0%R / n)%R.

Definition set_pdf (t : target) (r : ext R) (p : pdf) (new : bool) : target :=
  mkTarget (tg_id t) r p (tg_cid t) new (tg_t0 t).

Definition number (x : ext R) : R := match x with Fin r => r | _ => 0%R end.

(** Target_::correct, target.hpp:161-170, with the target's row of R.  The row
    is summed before the densities are joined, so all its entries are numbers
    then. *)
Definition target_update (s : sensor) (rs : list Rep) (row : list (ext R)) (t : target) : option target :=
  let '(r, joins) := target_correct row in
  if joins then
    match join sortf (cw_lim pm) (map number row) (map fst (against s rs t) ++ [p_c (tg_pdf t)]) with
    | Ok (c, _) => Some (set_pdf t r (mkPdf c (p_bbox (tg_pdf t)) (p_aabb (tg_pdf t)) (p_origin (tg_pdf t))) false)
    | _ => None
    end
  else Some (set_pdf t r (tg_pdf t) false).

(** Cluster_::correct, cluster.hpp:50-141: lines 56 and 136 change coordinates.
    More than 30 targets overflow an int (C14) and have no result. *)
Definition cluster_update (s : sensor) (fuel : nat) (rs : list Rep) (ts : list target) :
    option (list target * list (Rep * ext R)) :=
  if 30 <? length ts then None else
  let o := center rs ts in
  let rs := map (r_local op o) rs in
  let ts := map (fun t => set_pdf t (tg_r t) (pdf_local o (tg_pdf t)) (tg_new t)) ts in
  let N := length rs in
  match all_some (map (target_input s rs) ts) with
  | None => None
  | Some tins =>
      match Cluster.correct expf pick (w_lim pm) (nhyp_max pm) fuel N tins with
      | Ok out =>
          match (if c_n out =? 0 then Some (map (fun t => set_pdf t (tg_r t) (tg_pdf t) false) ts)
                 else all_some (map (fun it => target_update s rs (row_of N (fst it) (c_R out)) (snd it))
                                    (combine (seq 0 (length ts)) ts))) with
          | None => None
          | Some ts => Some (map (fun t => set_pdf t (tg_r t) (pdf_global (tg_pdf t)) (tg_new t)) ts,
                             combine (map (r_global op o) rs) (c_rB out))
          end
      | _ => None
      end
  end.

(** pdf_init1, sensors.hpp:66-76, with the constructor of GM, gm.hpp:36-42 (the
    boxes of the default constructors are overwritten at once). *)
Variable no_bbox : BB.
Definition init_pdf (z : Rep) : pdf :=
  let c := [(1%R, r_init op z)] in
  pdf_global (pdf_local (p_pos c) (mkPdf c no_bbox (mkAabb (-lmb_inf) (-lmb_inf) lmb_inf lmb_inf) (0, 0)%R)).

(** The calls of SILMB as Tracker.v takes them.  [fuel] bounds the steps of the
    assignment loops. *)
Definition predict_op (m : model) (time last : R) : call := Predict (fun _ => predict_target m time last).
Definition correct_op (s : sensor) (fuel : nat) (scan : list Rep) (time : R) : call :=
  Correct (mkCorrection scan (sn_fov s) (fun p => sn_sees s (p_bbox p)) (r_box op)
             (cluster_update s fuel) (sn_lambdaB s) init_pdf time).
End Ops.
