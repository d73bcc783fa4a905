(** Histories of calls: consistency, ids, viability, births, probabilities. *)
From Coq Require Import List Arith NArith Bool Reals Lra Lia Permutation Relations Sorted.
Import ListNotations.
From Verif Require Import Res Scalar LapBase RTree RTreeSpec RTreeInst CC CCSpec CCProofs Cluster Tracker TrackerSpec
  TrackerProofs TrackerPar TrackerCluster TrackerMain.
Local Open Scope nat_scope.

Lemma flat_map_flat_map {A B C} (f : A -> list B) (g : B -> list C) l :
  flat_map g (flat_map f l) = flat_map (fun x => flat_map g (f x)) l.
Proof. induction l as [|x l IH]; simpl; auto. rewrite flat_map_app, IH. auto. Qed.

Lemma Rsum_app l1 l2 : Rsum (l1 ++ l2) = (Rsum l1 + Rsum l2)%R.
Proof. unfold Rsum. induction l1 as [|x l1 IH]; simpl; [lra|]. rewrite IH. lra. Qed.

Lemma Rsum_perm l1 l2 : Permutation l1 l2 -> Rsum l1 = Rsum l2.
Proof. unfold Rsum. induction 1; simpl; lra. Qed.

Lemma Rsum_nonneg l : (forall x, In x l -> (0 <= x)%R) -> (0 <= Rsum l)%R.
Proof.
  unfold Rsum. induction l as [|x l IH]; intros H; simpl; [lra|]. specialize (H x) as Hx. simpl in Hx.
  specialize (IH ltac:(intros; apply H; simpl; auto)). specialize (Hx ltac:(auto)). lra.
Qed.

(** Births sum to at most [lambdaB]. *)
Lemma birth_rs_sum r_lim rB_max lambdaB ws : (0 < r_lim)%R -> (0 <= lambdaB)%R -> (forall w, In w ws -> (0 <= w)%R) ->
  (Rsum (birth_rs r_lim rB_max lambdaB ws) <= lambdaB)%R.
Proof.
  intros Hr Hl Hw. unfold birth_rs. destruct (Rle_dec r_lim (Rsum ws)) as [Hs|_]; [|unfold Rsum; simpl; auto].
  assert (Hpos : (0 < Rsum ws)%R) by lra.
  assert (H : forall l, (forall w, In w l -> (0 <= w)%R) ->
    (Rsum (flat_map (fun w => let nr := (w * lambdaB / Rsum ws)%R in if Rle_dec r_lim nr then [Rmin nr rB_max] else []) l)
     <= lambdaB / Rsum ws * Rsum l)%R).
  { assert (Hk : (0 <= lambdaB / Rsum ws)%R).
    { unfold Rdiv. apply Rmult_le_pos; auto. left. apply Rinv_0_lt_compat. auto. }
    induction l as [|w l IH]; intros Hl'; [cbn [flat_map]; change (Rsum []) with 0%R; lra|]. cbn [flat_map]. rewrite Rsum_app.
    specialize (IH ltac:(intros; apply Hl'; simpl; auto)). specialize (Hl' w ltac:(simpl; auto)).
    change (Rsum (w :: l)) with (w + Rsum l)%R. rewrite Rmult_plus_distr_l.
    assert (E : (lambdaB / Rsum ws * w = w * lambdaB / Rsum ws)%R) by (unfold Rdiv; ring).
    assert (Hw0 : (0 <= lambdaB / Rsum ws * w)%R) by (apply Rmult_le_pos; auto).
    cbv zeta. destruct (Rle_dec r_lim (w * lambdaB / Rsum ws)).
    - assert (Rsum [Rmin (w * lambdaB / Rsum ws) rB_max] <= w * lambdaB / Rsum ws)%R.
      { pose proof (Rmin_l (w * lambdaB / Rsum ws) rB_max). generalize dependent (Rmin (w * lambdaB / Rsum ws) rB_max). intros m Hm.
        change (Rsum [m]) with (m + 0)%R. lra. }
      lra.
    - change (Rsum []) with 0%R. lra. }
  specialize (H ws Hw). replace (lambdaB / Rsum ws * Rsum ws)%R with lambdaB in H by (field; lra). auto.
Qed.

Lemma birth_rs_bounds r_lim rB_max lambdaB ws x : In x (birth_rs r_lim rB_max lambdaB ws) ->
  (x <= rB_max)%R /\ (x = rB_max \/ r_lim <= x)%R.
Proof.
  unfold birth_rs. destruct (Rle_dec r_lim (Rsum ws)); [|intros []]. rewrite in_flat_map. intros (w & _ & Hx). cbv zeta in Hx.
  destruct (Rle_dec r_lim (w * lambdaB / Rsum ws)) as [H|]; [|destruct Hx]. destruct Hx as [<-|[]].
  split; [apply Rmin_r|]. unfold Rmin. destruct (Rle_dec _ rB_max); auto.
Qed.

Lemma app_inj_2 {A} (a b c d : list A) : length d = length b -> a ++ b = c ++ d -> a = c /\ b = d.
Proof.
  intros Hl E. assert (Hl2 : length a = length c).
  { apply (f_equal (@length A)) in E. rewrite !app_length in E. lia. }
  revert c Hl2 E. induction a as [|x a IH]; intros [|y c] Hl2 E; simpl in *; try discriminate; auto.
  inversion E as [[E1 E2]]. destruct (IH c) as (-> & ->); auto.
Qed.

Section Hist.
Context {P Rep : Type}.
Variable unit : R.
Hypothesis unit_pos : (0 < unit)%R.
Variable box : P -> rect (ext R).
Hypothesis box_real : forall p, real_box (box p).
Variable covnorm : P -> ext R.
Variables r_lim cov_lim rB_max : R.

Notation tracker := (tracker (P := P)).
Notation target := (target (P := P)).
Notation report := (report (Rep := Rep)).
Notation correction := (correction (P := P) (Rep := Rep)).
Notation call := (call (P := P) (Rep := Rep)).
Notation vol := (volR unit).
Notation kept := (kept covnorm r_lim cov_lim).
Notation predict := (predict vol box covnorm r_lim cov_lim).
Notation correct_call := (correct_call vol box covnorm r_lim cov_lim rB_max).
Notation call_step := (call_step vol box covnorm r_lim cov_lim rB_max).
Notation calls := (calls vol box covnorm r_lim cov_lim rB_max).
Notation fit := (fit covnorm r_lim cov_lim).

Definition survive (g : addr -> target -> option target) (x : addr * target) : list (addr * target) :=
  match g (fst x) (snd x) with Some t => [(fst x, t)] | None => [] end.

Lemma live_survive (st st2 : tracker) g : listed st ->
  (forall a, heap st2 a = match heap st a with Some t => g a t | None => None end) ->
  targets st2 = filter (fun a => match heap st2 a with Some _ => true | None => false end) (targets st) ->
  live st2 = flat_map (survive g) (live st).
Proof.
  intros (Hn & Hl) Hh Ht. unfold live. rewrite Ht. etransitivity; [|symmetry; apply flat_map_flat_map].
  clear Ht Hl Hn. induction (targets st) as [|a T IH]; auto. cbn [filter flat_map].
  assert (E : flat_map (survive g) (match heap st a with Some t => [(a, t)] | None => [] end) =
    match heap st2 a with Some t => [(a, t)] | None => [] end).
  { rewrite Hh. destruct (heap st a) as [t|]; auto. cbn [flat_map]. unfold survive. cbn [fst snd]. rewrite app_nil_r. reflexivity. }
  rewrite E. destruct (heap st2 a) as [t|] eqn:E2; [|exact IH]. cbn [flat_map]. rewrite E2. f_equal. exact IH.
Qed.

Lemma kept_fit o t : kept o = Some t -> o = Some t /\ fit t.
Proof.
  unfold TrackerProofs.kept. destruct o as [u|]; [|discriminate]. unfold viable.
  destruct (nlt extR (tg_r u) (Fin r_lim)) eqn:E1; [discriminate|].
  destruct (nlt extR (Fin cov_lim) (covnorm (tg_pdf u))) eqn:E2; [discriminate|]. intros H. inversion H; subst. split; auto.
  split; [|split; [|split]].
  - intros x Ex. rewrite Ex in E1. rewrite lt_FF in E1. destruct (Rltb_spec x r_lim); [discriminate|]. lra.
  - intros Ex. rewrite Ex in E1. discriminate.
  - intros x Ex. rewrite Ex in E2. rewrite lt_FF in E2. destruct (Rltb_spec cov_lim x); [discriminate|]. lra.
  - intros Ex. rewrite Ex in E2. discriminate.
Qed.

(** ** One call *)
Record evolved (st st' : tracker) (g : addr -> target -> option target) (new : list (addr * target)) : Prop := mkEvolved {
  e_ok : consistent box st';
  e_live : live st' = flat_map (survive g) (live st) ++ new;
  e_same : forall a t t', In (a, t) (live st) -> g a t = Some t' -> tg_id t' = tg_id t;
  e_ids : map (fun x => tg_id (snd x)) new = map (fun i => ((next_id st + N.of_nat i) mod 2 ^ 32)%N) (seq 0 (length new));
  e_next : next_id st' = (next_id st + N.of_nat (length new))%N }.

Lemma predict_evolved f (st : tracker) : consistent box st -> (forall a t, tg_id (f a t) = tg_id t) ->
  exists st', predict f st = Ok st' /\ evolved st st' (fun a t => kept (Some (f a t))) [].
Proof.
  intros Hc Hf. destruct (predict_ok unit unit_pos box box_real covnorm r_lim cov_lim f st Hc) as (st' & E & Hc' & Hn & Hh & Ht).
  exists st'. split; auto. split; auto.
  - rewrite app_nil_r. apply live_survive; auto. apply Hc.
  - intros a t t' _ Hk. apply kept_fit in Hk. destruct Hk as (Hk & _). inversion Hk. apply Hf.
  - cbn [length]. rewrite Hn. lia.
Qed.

(** All that is needed about a correction. *)
Record corrected (s : correction) (st st' : tracker) : Prop := mkCorrected {
  x_witness : exists affected st1 scan cls newt newr st2 scan2 new order,
    plan box s st affected st1 scan cls newt newr /\
    (forall a, In a affected <-> exists t, heap st a = Some t /\ meets (s_fov s) (box (tg_pdf t)) /\ s_sees s (tg_pdf t) = true) /\
    in_view s st = Ok affected /\
    phase2 box covnorm r_lim cov_lim s st st1 scan cls newt newr st2 scan2 /\
    consistent box st' /\ grown st2 st' new /\
    Permutation order (concat (map cl_reports cls)) /\
    map content new = if nle extR (Fin r_lim) (rB_sum scan2) then flat_map (newborn r_lim rB_max s scan2 (rB_sum scan2)) order else [] }.

Lemma in_view_plan (s : correction) (st : tracker) : consistent box st -> sane_correction s ->
  exists affected st1 scan cls newt newr, in_view s st = Ok affected /\
    (forall a, In a affected <-> exists t, heap st a = Some t /\ meets (s_fov s) (box (tg_pdf t)) /\ s_sees s (tg_pdf t) = true) /\
    (forall a, In a affected -> In a (targets st)) /\ NoDup affected /\
    plan box s st affected st1 scan cls newt newr.
Proof.
  intros Hc Hs. destruct (in_view_ok box s st Hc (proj1 Hs)) as (l & E & Hn & Hl).
  assert (Hlive : forall a, In a l -> In a (targets st)).
  { intros a Ha. apply Hl in Ha. destruct Ha as (t & Et & _). apply Hc. congruence. }
  destruct (plan_exists box s Hs st Hc l Hlive Hn) as (st1 & scan & cls & newt & newr & Hp).
  exists l, st1, scan, cls, newt, newr. auto.
Qed.

Lemma correct_ok (s : correction) (st : tracker) o : consistent box st -> sane_correction s -> correct_call s st o ->
  match o with UB => False | OutOfFuel => True | Ok st' => corrected s st st' end.
Proof.
  intros Hc Hs H. destruct (in_view_plan s st Hc Hs) as (l & st1 & scan & cls & newt & newr & E & Hl & Hlive & Hn & Hp).
  destruct H as [E'|E'|l' o E' Hr]; rewrite E in E'; try discriminate; inversion E'; subst l'.
  pose proof (correct_rest_ok unit unit_pos box box_real covnorm r_lim cov_lim rB_max s st Hc l _ _ _ _ _ Hp o Hr) as H.
  destruct o as [st'| |]; auto. destruct H as (st2 & scan2 & new & order & Hq & Hc' & Hg & Hperm & Ha).
  split. exists l, st1, scan, cls, newt, newr, st2, scan2, new, order. auto 10.
Qed.

Lemma correct_exists (s : correction) (st : tracker) : consistent box st -> sane_correction s -> exists o, correct_call s st o.
Proof.
  intros Hc Hs. destruct (in_view_plan s st Hc Hs) as (l & st1 & scan & cls & newt & newr & E & Hl & Hlive & Hn & Hp).
  destruct (correct_rest_exists unit unit_pos box box_real covnorm r_lim cov_lim rB_max s st Hc l _ _ _ _ _ Hp) as (o & Ho).
  exists o. eapply cc_go; eauto.
Qed.

Lemma correct_evolved (s : correction) (st st' : tracker) : consistent box st -> sane_correction s ->
  corrected s st st' -> exists g new, evolved st st' g new.
Proof.
  intros Hc Hs [(l & st1 & scan & cls & newt & newr & st2 & scan2 & new & order & Hp & Hl & E & Hq & Hc' & Hg & Hperm & Ha)].
  exists (after covnorm r_lim cov_lim cls newt), new. destruct Hg as [G1 G2 G3 G4 G5]. destruct Hq as [Q1 Q2 Q3 Q4 Q5 Q6].
  split; auto.
  - rewrite G1. f_equal. apply live_survive; auto. apply Hc.
  - intros a t t' Hin Hat. apply live_In in Hin; [|apply Hc]. unfold after in Hat. unfold clusteredb in Hat.
    destruct (existsb (Nat.eqb a) (concat (map cl_targets cls))) eqn:Ex.
    + apply existsb_nat in Ex. apply kept_fit in Hat. destruct Hat as (Hat & _).
      eapply (newt_id box s Hs st Hc l _ _ _ _ _ Hp); eauto.
    + inversion Hat. reflexivity.
  - rewrite G2, Q4. reflexivity.
  - congruence.
Qed.

Lemma call_ok (st : tracker) (c : call) o : consistent box st -> sane_call c -> call_step st c o ->
  match o with UB => False | OutOfFuel => True | Ok st' => exists g new, evolved st st' g new end.
Proof.
  intros Hc Hs H. destruct H as [f|s o H].
  - destruct (predict_evolved f st Hc Hs) as (st' & -> & He). eauto.
  - pose proof (correct_ok s st o Hc Hs H) as Hx. destruct o; auto. apply (correct_evolved s); auto.
Qed.

Lemma consistent_new : consistent box new_tracker.
Proof.
  split; [|split].
  - split; [constructor|]. intros a. simpl. intuition congruence.
  - unfold indexed. reflexivity.
  - unfold tree_ok. split; [constructor|split; simpl; lia].
Qed.

Lemma calls_ok st (cs : list call) o : calls st cs o -> consistent box st -> Forall sane_call cs ->
  match o with UB => False | OutOfFuel => True | Ok st' => consistent box st' end.
Proof.
  induction 1 as [st|st c cs st' o Hc _ IH|st c cs Hc|st c cs Hc]; intros Hok Hs; auto; inversion Hs as [|? ? H1 H2]; subst.
  - pose proof (call_ok _ _ _ Hok H1 Hc) as (g & new & He). apply IH; auto. apply (e_ok _ _ _ _ He).
  - exact (call_ok _ _ _ Hok H1 Hc).
Qed.

Lemma calls_exist (cs : list call) : forall st, consistent box st -> Forall sane_call cs -> exists o, calls st cs o.
Proof.
  induction cs as [|c cs IH]; intros st Hok Hs; [eexists; constructor|]. inversion Hs as [|? ? H1 H2]; subst.
  assert (He : exists o, call_step st c o).
  { destruct c as [f|s]; [eexists; constructor|]. destruct (correct_exists s st Hok H1) as (o & Ho). exists o. constructor. auto. }
  destruct He as (o & Ho). destruct o as [st'| |].
  - destruct (call_ok _ _ _ Hok H1 Ho) as (g & new & He). destruct (IH st' (e_ok _ _ _ _ He) H2) as (o & Hcs).
    exists o. eapply cl_cons; eauto.
  - exists UB. apply cl_ub. auto.
  - exists OutOfFuel. apply cl_end. auto.
Qed.

(** ** Ids *)
Definition idpairs (l : list (addr * target)) : list (addr * N) := map (fun x => (fst x, tg_id (snd x))) l.

(** The list [l] with some elements left out. *)
Inductive sub {A} : list A -> list A -> Prop :=
| sub_nil : sub [] []
| sub_keep x l1 l2 : sub l1 l2 -> sub (x :: l1) (x :: l2)
| sub_drop x l1 l2 : sub l1 l2 -> sub l1 (x :: l2).

Lemma sub_refl {A} (l : list A) : sub l l.
Proof. induction l; constructor; auto. Qed.
Lemma sub_In {A} (l1 l2 : list A) x : sub l1 l2 -> In x l1 -> In x l2.
Proof. induction 1; simpl; intuition. Qed.
Lemma sub_sorted {A} (R : A -> A -> Prop) l1 l2 : sub l1 l2 -> StronglySorted R l2 -> StronglySorted R l1.
Proof.
  induction 1 as [|x l1 l2 Hs IH|x l1 l2 Hs IH]; intros H; auto; inversion H as [|? ? H1 H2]; subst; auto.
  constructor; auto. rewrite Forall_forall in *. intros y Hy. apply H2. eapply sub_In; eauto.
Qed.

Lemma survive_sub g l : (forall a t t', In (a, t) l -> g a t = Some t' -> tg_id t' = tg_id t) ->
  sub (idpairs (flat_map (survive g) l)) (idpairs l).
Proof.
  induction l as [|[a t] l IH]; intros H; [constructor|]. cbn [flat_map].
  assert (IH' : sub (idpairs (flat_map (survive g) l)) (idpairs l)) by (apply IH; intros; eapply H; eauto; simpl; auto).
  change (idpairs ((a, t) :: l)) with ((a, tg_id t) :: idpairs l). unfold survive at 1. cbn [fst snd].
  destruct (g a t) as [t'|] eqn:E.
  - cbn [app]. unfold idpairs at 1. cbn [map fst snd]. rewrite (H a t t' ltac:(simpl; auto) E). constructor. exact IH'.
  - cbn [app]. constructor. exact IH'.
Qed.

(** Live ids increase and are below the counter. *)
Definition ids_ok (st : tracker) : Prop :=
  StronglySorted N.lt (ids st) /\ Forall (fun i => (i < next_id st)%N) (ids st).

Lemma sorted_app {A} (R : A -> A -> Prop) l1 l2 : StronglySorted R l1 -> StronglySorted R l2 ->
  (forall x y, In x l1 -> In y l2 -> R x y) -> StronglySorted R (l1 ++ l2).
Proof.
  intros H1 H2 H. induction H1 as [|x l1 Hs IH Hf]; simpl; auto. constructor.
  - apply IH. intros; apply H; simpl; auto.
  - apply Forall_app. split; auto. apply Forall_forall. intros y Hy. apply H; simpl; auto.
Qed.

Lemma sorted_nat_ids n0 : forall len b, StronglySorted N.lt (map (fun i => (n0 + N.of_nat i)%N) (seq b len)).
Proof.
  induction len as [|len IH]; intros b; simpl; [constructor|]. constructor; auto.
  apply Forall_forall. intros y Hy. apply in_map_iff in Hy. destruct Hy as (i & <- & Hi). apply in_seq in Hi. lia.
Qed.

Lemma ids_idpairs (st : tracker) : ids st = map snd (idpairs (live st)).
Proof. unfold ids, idpairs. rewrite map_map. reflexivity. Qed.

Lemma sub_map {A B} (f : A -> B) l1 l2 : sub l1 l2 -> sub (map f l1) (map f l2).
Proof. induction 1; simpl; constructor; auto. Qed.

Lemma new_ids n0 (new : list (addr * target)) : (n0 + N.of_nat (length new) <= 2 ^ 32)%N ->
  map (fun x => tg_id (snd x)) new = map (fun i => ((n0 + N.of_nat i) mod 2 ^ 32)%N) (seq 0 (length new)) ->
  map (fun x => tg_id (snd x)) new = map (fun i => (n0 + N.of_nat i)%N) (seq 0 (length new)).
Proof.
  intros Hb E. rewrite E. apply map_ext_in. intros i Hi. apply in_seq in Hi. apply N.mod_small. lia.
Qed.

Lemma evolved_ids (st st' : tracker) g new : evolved st st' g new -> (next_id st' <= 2 ^ 32)%N ->
  ids_ok st -> ids_ok st' /\ (next_id st <= next_id st')%N /\
  (forall a i, In (a, i) (idpairs (live st')) -> (i < next_id st)%N -> In (a, i) (idpairs (live st))).
Proof.
  intros [_ El Es Ei En] Hb (Hsort & Hlt). rewrite En in Hb. pose proof (new_ids _ _ Hb Ei) as Ei'.
  pose proof (survive_sub g (live st) Es) as Hsub.
  assert (Eids : ids st' = map snd (idpairs (flat_map (survive g) (live st))) ++ map (fun i => (next_id st + N.of_nat i)%N) (seq 0 (length new))).
  { rewrite ids_idpairs, El. unfold idpairs. rewrite !map_app. f_equal. rewrite map_map, <- Ei'. apply map_ext. auto. }
  assert (Hold : sub (map snd (idpairs (flat_map (survive g) (live st)))) (ids st)).
  { rewrite ids_idpairs. apply sub_map. auto. }
  rewrite Forall_forall in Hlt. split; [split|split].
  - rewrite Eids. apply sorted_app.
    + eapply sub_sorted; eauto.
    + apply sorted_nat_ids.
    + intros x y Hx Hy. apply (sub_In _ _ _ Hold) in Hx. apply Hlt in Hx. apply in_map_iff in Hy. destruct Hy as (i & <- & _). lia.
  - rewrite Eids, En. apply Forall_app. split; apply Forall_forall.
    + intros x Hx. apply (sub_In _ _ _ Hold) in Hx. apply Hlt in Hx. lia.
    + intros x Hx. apply in_map_iff in Hx. destruct Hx as (i & <- & Hi). apply in_seq in Hi. lia.
  - rewrite En. lia.
  - intros a i Hin Hi. rewrite El in Hin. unfold idpairs in Hin. rewrite map_app in Hin. apply in_app_or in Hin. destruct Hin as [Hin|Hin].
    + eapply sub_In; [exact Hsub|exact Hin].
    + exfalso. apply (in_map snd) in Hin. rewrite map_map in Hin. cbn [snd] in Hin. rewrite Ei' in Hin.
      apply in_map_iff in Hin. destruct Hin as (k & E & _). simpl in E. lia.
Qed.

Lemma next_id_mono st (cs : list call) o : calls st cs o -> consistent box st -> Forall sane_call cs ->
  forall st', o = Ok st' -> (next_id st <= next_id st')%N.
Proof.
  induction 1 as [st|st c cs st1 o Hc _ IH|st c cs Hc|st c cs Hc]; intros Hok Hs st' E; try discriminate.
  - inversion E. lia.
  - inversion Hs as [|? ? H1 H2]; subst. destruct (call_ok _ _ _ Hok H1 Hc) as (g & new & He).
    specialize (IH (e_ok _ _ _ _ He) H2 st' eq_refl). rewrite (e_next _ _ _ _ He) in IH. lia.
Qed.

Lemma calls_ids st (cs : list call) o : calls st cs o -> consistent box st -> Forall sane_call cs -> ids_ok st ->
  forall st', o = Ok st' -> (next_id st' <= 2 ^ 32)%N ->
  ids_ok st' /\ (forall a i, In (a, i) (idpairs (live st')) -> (i < next_id st)%N -> In (a, i) (idpairs (live st))).
Proof.
  induction 1 as [st|st c cs st1 o Hc Hcs IH|st c cs Hc|st c cs Hc]; intros Hok Hs Hi st' E Hb; try discriminate.
  - inversion E; subst. auto.
  - inversion Hs as [|? ? H1 H2]; subst. destruct (call_ok _ _ _ Hok H1 Hc) as (g & new & He).
    pose proof (next_id_mono _ _ _ Hcs (e_ok _ _ _ _ He) H2 _ eq_refl) as Hmono.
    destruct (evolved_ids _ _ _ _ He ltac:(lia) Hi) as (Hi1 & Hle & Hold).
    destruct (IH (e_ok _ _ _ _ He) H2 Hi1 st' eq_refl Hb) as (Hi2 & Hold2). split; auto.
    intros a i Hin Hlt. apply Hold; auto. apply Hold2; auto. lia.
Qed.

(** ** Viability *)
Lemma predict_fit f (st st' : tracker) : consistent box st -> predict f st = Ok st' ->
  forall a t, In (a, t) (live st') -> fit t.
Proof.
  intros Hc E a t Hin. destruct (predict_ok unit unit_pos box box_real covnorm r_lim cov_lim f st Hc) as (st2 & E2 & Hc' & _ & Hh & _).
  rewrite E in E2. inversion E2; subst st2. apply live_In in Hin; [|apply Hc']. rewrite Hh in Hin.
  destruct (heap st a); [|discriminate]. apply kept_fit in Hin. tauto.
Qed.

Lemma start_scan_rp (s : correction) : map rp (start_scan s) = s_scan s.
Proof. unfold start_scan. rewrite map_map. apply map_id. Qed.

Lemma touched_clustered (s : correction) (st : tracker) affected st1 scan cls newt newr a t : consistent box st ->
  plan box s st affected st1 scan cls newt newr ->
  (forall a, In a affected <-> exists t, heap st a = Some t /\ meets (s_fov s) (box (tg_pdf t)) /\ s_sees s (tg_pdf t) = true) ->
  heap st a = Some t -> (touched box s st a t <-> clustered cls a).
Proof.
  intros Hc Hp Ha Et. unfold clustered. rewrite (k_targets _ _ _ _ _ _ _ _ (p_clustering _ _ _ _ _ _ _ _ _ Hp) a).
  unfold touched. rewrite start_scan_rp, Ha. split.
  - intros [H|H]; [left; eauto|auto].
  - intros [(t' & Et' & H)|H]; [left; congruence|auto].
Qed.

Lemma correct_fit (s : correction) (st st' : tracker) : consistent box st -> sane_correction s -> correct_call s st (Ok st') ->
  exists old new, live st' = old ++ new /\
    next_id st' = (next_id st + N.of_nat (length new))%N /\
    (forall a t', In (a, t') old -> exists t, In (a, t) (live st) /\ tg_id t' = tg_id t /\
       (touched box s st a t -> fit t') /\ (~ touched box s st a t -> t' = t)) /\
    (forall a t, In (a, t) (live st) -> ~ touched box s st a t -> In (a, t) old) /\
    map (fun x => tg_id (snd x)) new = map (fun i => ((next_id st + N.of_nat i) mod 2 ^ 32)%N) (seq 0 (length new)).
Proof.
  intros Hc Hs H. pose proof (correct_ok s st _ Hc Hs H) as Hx. cbn beta iota in Hx.
  destruct Hx as [(l & st1 & scan & cls & newt & newr & st2 & scan2 & new & order & Hp & Hl & E & Hq & Hc' & Hg & Hperm & Ha)].
  exists (live st2), new. destruct Hq as [Q1 Q2 Q3 Q4 Q5 Q6]. destruct Hg as [G1 G2 G3 G4 G5].
  split; [exact G1|]. split; [congruence|]. split; [|split].
  - intros a t' Hin. apply live_In in Hin; [|apply Q1]. rewrite Q2 in Hin. destruct (heap st a) as [t|] eqn:Et; [|discriminate].
    pose proof (touched_clustered s st _ _ _ _ _ _ a t Hc Hp Hl Et) as Htc.
    exists t. split; [apply live_In; auto; apply Hc|]. unfold after, clusteredb in Hin.
    destruct (existsb (Nat.eqb a) (concat (map cl_targets cls))) eqn:Ex.
    + apply existsb_nat in Ex. apply kept_fit in Hin. destruct Hin as (Hn & Hf). split; [|split; auto].
      * eapply (newt_id box s Hs st Hc l _ _ _ _ _ Hp); eauto.
      * intros Hnt. exfalso. apply Hnt, Htc. exact Ex.
    + inversion Hin; subst. split; auto. split; auto. intros Ht. apply Htc in Ht. apply existsb_nat in Ht. congruence.
  - intros a t Hin Hnt. apply live_In in Hin; [|apply Hc]. apply live_In; [apply Q1|]. rewrite Q2, Hin.
    pose proof (touched_clustered s st _ _ _ _ _ _ a t Hc Hp Hl Hin) as Htc. unfold after, clusteredb.
    destruct (existsb (Nat.eqb a) (concat (map cl_targets cls))) eqn:Ex; auto.
    exfalso. apply Hnt, Htc, existsb_nat. auto.
  - rewrite <- Q4. exact G2.
Qed.

(** ** Births *)
Lemma old_targets_live (s : correction) (st : tracker) affected st1 scan cls newt newr c v :
  consistent box st -> plan box s st affected st1 scan cls newt newr -> In c cls -> In v (old_targets st1 c) ->
  exists a t, In (a, t) (live st) /\ tg_r v = tg_r t /\ tg_pdf v = tg_pdf t.
Proof.
  intros Hc Hp Hcin Hv. unfold old_targets in Hv. apply in_flat_map in Hv. destruct Hv as (b & Hb & Hv).
  destruct (heap st1 b) as [w|] eqn:Eb; [|destruct Hv]. destruct Hv as [<-|[]].
  assert (Hb' : In b (targets st)).
  { destruct (k_state _ _ _ _ _ _ _ _ (p_clustering _ _ _ _ _ _ _ _ _ Hp)) as (Kt & _). rewrite <- Kt.
    apply (proj1 (p_ok _ _ _ _ _ _ _ _ _ Hp)). congruence. }
  apply Hc in Hb'. destruct (heap st b) as [w0|] eqn:Eb0; [|congruence].
  rewrite (k_cid _ _ _ _ _ _ _ _ (p_clustering _ _ _ _ _ _ _ _ _ Hp) c b w0 Hcin Hb Eb0) in Eb. inversion Eb; subst w.
  exists b, w0. split; [apply live_In; auto; apply Hc|]. split; reflexivity.
Qed.

Lemma weight_list (I : ext R -> P -> Prop) (s : correction) (st : tracker) affected st1 scan cls newt newr st2 scan2 :
  consistent box st -> sane_correction s -> weighted_on I s -> (forall x, In x (live st) -> I (tg_r (snd x)) (tg_pdf (snd x))) ->
  plan box s st affected st1 scan cls newt newr ->
  phase2 box covnorm r_lim cov_lim s st st1 scan cls newt newr st2 scan2 ->
  exists ws, map rp_rB scan2 = map Fin ws /\ (forall w, In w ws -> (0 <= w)%R) /\
    (forall w, In w ws -> exists rs ts ts' rs' d, s_update s rs ts = Some (ts', rs') /\ In (d, Fin w) rs' /\ Forall (fun t => I (tg_r t) (tg_pdf t)) ts) /\
    length ws = length (s_scan s).
Proof.
  intros Hc Hs Hw HI Hp Hq.
  assert (Hall : forall r, In r scan2 -> exists w, rp_rB r = Fin w /\ (0 <= w)%R /\
     exists rs ts ts' rs' d, s_update s rs ts = Some (ts', rs') /\ In (d, Fin w) rs' /\ Forall (fun t => I (tg_r t) (tg_pdf t)) ts).
  { intros r Hr. apply In_nth_error in Hr. destruct Hr as (j & Hj).
    pose proof (q_scan _ _ _ _ _ _ _ _ _ _ _ _ _ Hq j) as Ej. rewrite Hj in Ej.
    destruct (nth_error scan j) as [r0|] eqn:E0; [|discriminate].
    assert (Hin : In j (concat (map cl_reports cls))).
    { apply (p_scan _ _ _ _ _ _ _ _ _ Hp). apply nth_error_Some. congruence. }
    apply in_part in Hin. destruct Hin as (k & c & Hk & Hjc). apply nth_error_In in Hk.
    pose proof (p_newr _ _ _ _ _ _ _ _ _ Hp c Hk) as En. pose proof (q_done _ _ _ _ _ _ _ _ _ _ _ _ _ Hq c Hk) as Ed.
    assert (Hm : In (newr j) (map Some (new_reports s st1 scan c))) by (rewrite <- En; apply in_map; auto).
    apply in_map_iff in Hm. destruct Hm as ((d & x) & Ex & Hd). rewrite <- Ex in Ej. inversion Ej; subst r. cbn [rp_rB].
    unfold new_reports, outcome in *. destruct (s_update s (old_reports scan c) (old_targets st1 c)) as [[ts' rs']|] eqn:Eu; [|congruence].
    assert (Hf : Forall (fun t => I (tg_r t) (tg_pdf t)) (old_targets st1 c)).
    { apply Forall_forall. intros v Hv. destruct (old_targets_live s st _ _ _ _ _ _ c v Hc Hp Hk Hv) as (a & t & Hin & E1 & E2).
      rewrite E1, E2. exact (HI _ Hin). }
    destruct (Hw _ _ _ _ Eu Hf) with (dx := (d, x)) as (w & E1 & Hw0); auto.
    simpl in E1. subst x. exists w. split; auto. split; auto.
    exists (old_reports scan c), (old_targets st1 c), ts', rs', d. auto. }
  assert (Hlen : length scan2 = length (s_scan s)).
  { rewrite (phase2_scan_length box covnorm r_lim cov_lim s st st1 scan cls newt newr st2 scan2 Hq). apply (p_len _ _ _ _ _ _ _ _ _ Hp). }
  clear Hq Hp. revert Hall Hlen. generalize (length (s_scan s)). induction scan2 as [|r l IH]; intros n Hall Hlen.
  - exists []. simpl in *. repeat split; auto; intros w [].
  - destruct (Hall r ltac:(simpl; auto)) as (w & E & Hw0 & Hs0). simpl in Hlen. destruct n; [discriminate|].
    destruct (IH n) as (ws & E1 & H1 & H2 & H3); [intros; apply Hall; simpl; auto|lia|].
    exists (w :: ws). simpl. split; [congruence|]. split; [intros x [<-|Hx]; auto|]. split; [intros x [<-|Hx]; auto|lia].
Qed.

Lemma rB_sum_ws (scan : list report) ws : map rp_rB scan = map Fin ws -> rB_sum scan = Fin (Rsum ws).
Proof.
  intros E. unfold rB_sum.
  assert (H : forall sc ws x, map rp_rB sc = map Fin ws ->
    fold_left (fun x (r : report) => nadd extR x (rp_rB r)) sc (Fin x) = Fin (x + Rsum ws)%R).
  { induction sc as [|r sc IH]; intros [|w ws'] x Ex; simpl in Ex; try discriminate.
    - unfold Rsum. simpl. f_equal. lra.
    - inversion Ex as [[E1 E2]]. cbn [fold_left]. rewrite E1, add_FF, (IH ws' _ E2). f_equal. unfold Rsum. simpl. lra. }
  rewrite (H scan ws 0%R E). f_equal. lra.
Qed.

Lemma birth_r_ws (r : report) w lam S : (0 < S)%R -> rp_rB r = Fin w ->
  birth_r r_lim rB_max lam (Fin S) r =
  if Rle_dec r_lim (w * lam / S) then Some (Fin (Rmin (w * lam / S) rB_max)) else None.
Proof.
  intros HS E. unfold birth_r. rewrite E. change (nmul extR (Fin w) (Fin lam)) with (Fin (w * lam)%R).
  unfold xdiv, ediv. destruct (Reqb_spec S 0); [lra|]. rewrite le_FF, lt_FF.
  destruct (Rleb_spec r_lim (w * lam / S)), (Rle_dec r_lim (w * lam / S)); try (exfalso; lra); auto.
  f_equal. unfold Rmin. destruct (Rltb_spec rB_max (w * lam / S)), (Rle_dec (w * lam / S) rB_max); auto; exfalso; lra.
Qed.

Lemma perm_seq cls n : NoDup (concat (map cl_reports cls)) -> (forall j, In j (concat (map cl_reports cls)) <-> j < n) ->
  Permutation (concat (map cl_reports cls)) (seq 0 n).
Proof.
  intros Hn H. apply NoDup_Permutation; auto; [apply seq_NoDup|]. intros x. rewrite H, in_seq. lia.
Qed.

Lemma flat_map_seq {A B} (f : A -> list B) (l : list A) :
  flat_map (fun j => match nth_error l j with Some x => f x | None => [] end) (seq 0 (length l)) = flat_map f l.
Proof.
  induction l as [|x l IH]; auto. cbn [length seq flat_map nth_error]. f_equal. rewrite <- seq_shift.
  rewrite flat_map_concat_map, map_map, <- flat_map_concat_map. exact IH.
Qed.

Lemma Permutation_flat_map' {A B} (f : A -> list B) l1 l2 : Permutation l1 l2 -> Permutation (flat_map f l1) (flat_map f l2).
Proof.
  induction 1; cbn [flat_map]; auto.
  - apply Permutation_app_head; auto.
  - rewrite !app_assoc. apply Permutation_app_tail, Permutation_app_comm.
  - etransitivity; eauto.
Qed.

Lemma correct_births_on (I : ext R -> P -> Prop) (s : correction) (st st' : tracker) : (0 < r_lim)%R ->
  consistent box st -> sane_correction s -> weighted_on I s -> (forall x, In x (live st) -> I (tg_r (snd x)) (tg_pdf (snd x))) ->
  correct_call s st (Ok st') ->
  exists old new ws rs, live st' = old ++ new /\
    next_id st' = (next_id st + N.of_nat (length new))%N /\
    (forall a t', In (a, t') old -> exists t, In (a, t) (live st) /\ tg_id t' = tg_id t) /\
    length ws = length (s_scan s) /\ (forall w, In w ws -> (0 <= w)%R) /\
    (forall w, In w ws -> exists rs ts ts' rs' d, s_update s rs ts = Some (ts', rs') /\ In (d, Fin w) rs' /\ Forall (fun t => I (tg_r t) (tg_pdf t)) ts) /\
    map (fun x => tg_r (snd x)) new = map Fin rs /\
    Permutation rs (birth_rs r_lim rB_max (s_lambdaB s) ws) /\
    (forall x, In x new -> tg_new (snd x) = true /\ tg_t0 (snd x) = s_time s /\ exists d, tg_pdf (snd x) = s_init s d).
Proof.
  intros Hr Hc Hs Hw HI H. pose proof (correct_ok s st _ Hc Hs H) as Hx. cbn beta iota in Hx.
  destruct Hx as [(l & st1 & scan & cls & newt & newr & st2 & scan2 & new & order & Hp & Hl & E & Hq & Hc' & Hg & Hperm & Ha)].
  destruct (weight_list I s st _ _ _ _ _ _ _ _ Hc Hs Hw HI Hp Hq) as (ws & Ews & Hws & Hsrc & Hlen).
  pose proof (phase2_scan_length box covnorm r_lim cov_lim s st st1 scan cls newt newr st2 scan2 Hq) as Hl2.
  rewrite (rB_sum_ws _ _ Ews) in Ha. rewrite le_FF in Ha.
  assert (Horder : Permutation order (seq 0 (length scan2))).
  { etransitivity; [exact Hperm|]. apply perm_seq.
    - apply (k_reports_once _ _ _ _ _ _ _ _ (p_clustering _ _ _ _ _ _ _ _ _ Hp)).
    - intros j. rewrite Hl2. apply (p_scan _ _ _ _ _ _ _ _ _ Hp). }
  assert (Hnew : exists rs, map (fun x => tg_r (snd x)) new = map Fin rs /\
    Permutation rs (birth_rs r_lim rB_max (s_lambdaB s) ws) /\
    (forall x, In x new -> tg_new (snd x) = true /\ tg_t0 (snd x) = s_time s /\ exists d, tg_pdf (snd x) = s_init s d)).
  { unfold birth_rs. destruct (Rleb_spec r_lim (Rsum ws)) as [HS|HS], (Rle_dec r_lim (Rsum ws)); try (exfalso; lra).
    2:{ destruct new; [|discriminate]. exists []. split; auto. split; auto. intros x []. }
    set (f := fun (r : report) => match birth_r r_lim rB_max (s_lambdaB s) (Fin (Rsum ws)) r with
        | Some x => [(x, s_init s (rp r), rp_cid r, true, s_time s)] | None => [] end).
    assert (Ef : flat_map (newborn r_lim rB_max s scan2 (Fin (Rsum ws))) (seq 0 (length scan2)) = flat_map f scan2)
      by apply (flat_map_seq f scan2).
    assert (Hperm2 : Permutation (map content new) (flat_map f scan2)).
    { rewrite Ha, <- Ef. apply Permutation_flat_map'. auto. }
    set (g := fun w => let nr := (w * s_lambdaB s / Rsum ws)%R in if Rle_dec r_lim nr then [Rmin nr rB_max] else []).
    assert (Eg : map (fun y => fst (fst (fst (fst y)))) (flat_map f scan2) = map Fin (flat_map g ws)).
    { assert (HSp : (0 < Rsum ws)%R) by lra. clear - Ews HSp. subst f g. revert HSp Ews. generalize (Rsum ws) as S. intros S HSp.
      revert ws. induction scan2 as [|r sc IH]; intros [|w ws] Ex; simpl in Ex; try discriminate; auto.
      inversion Ex as [[E1 E2]]. cbn [flat_map]. rewrite !map_app, (IH ws E2). f_equal.
      rewrite (birth_r_ws r w (s_lambdaB s) S HSp E1). destruct (Rle_dec r_lim (w * s_lambdaB s / S)); reflexivity. }
    assert (Hall : forall y, In y (flat_map f scan2) -> snd (fst y) = true /\ snd y = s_time s /\ exists d, snd (fst (fst (fst y))) = s_init s d).
    { intros y Hy. apply in_flat_map in Hy. destruct Hy as (r0 & _ & Hy). unfold f in Hy.
      destruct (birth_r _ _ _ _ r0); [|destruct Hy]. destruct Hy as [<-|[]]. split; auto. split; auto. exists (rp r0). reflexivity. }
    assert (Hpr : Permutation (map (fun x => tg_r (snd x)) new) (map Fin (flat_map g ws))).
    { rewrite <- Eg. etransitivity; [|apply Permutation_map; exact Hperm2]. rewrite map_map. reflexivity. }
    apply Permutation_map_inv in Hpr. destruct Hpr as (rs & Ers & Hrs).
    exists rs. split; auto. split; [symmetry; exact Hrs|].
    intros x Hx. apply (in_map content) in Hx. eapply Permutation_in in Hx; [|exact Hperm2]. apply Hall in Hx. exact Hx. }
  destruct Hnew as (rs & H1 & H2 & H3).
  exists (live st2), new, ws, rs. destruct Hg as [G1 G2 G3 G4 G5]. split; auto. split.
  { rewrite G3. rewrite (q_next _ _ _ _ _ _ _ _ _ _ _ _ _ Hq). reflexivity. }
  split; [|auto 10].
  intros a t' Hin. destruct Hq as [Q1 Q2 Q3 Q4 Q5 Q6]. apply live_In in Hin; [|apply Q1]. rewrite Q2 in Hin.
  destruct (heap st a) as [t|] eqn:Et; [|discriminate]. exists t. split; [apply live_In; auto; apply Hc|].
  unfold after, clusteredb in Hin. destruct (existsb (Nat.eqb a) (concat (map cl_targets cls))) eqn:Ex.
  - apply existsb_nat in Ex. apply kept_fit in Hin. destruct Hin as (Hn & _). eapply (newt_id box s Hs st Hc l _ _ _ _ _ Hp); eauto.
  - inversion Hin. reflexivity.
Qed.

Lemma correct_births (s : correction) (st st' : tracker) : (0 < r_lim)%R ->
  consistent box st -> sane_correction s -> weighted s -> correct_call s st (Ok st') ->
  exists old new ws rs, live st' = old ++ new /\
    next_id st' = (next_id st + N.of_nat (length new))%N /\
    (forall a t', In (a, t') old -> exists t, In (a, t) (live st) /\ tg_id t' = tg_id t) /\
    length ws = length (s_scan s) /\ (forall w, In w ws -> (0 <= w)%R) /\
    (forall w, In w ws -> exists rs ts ts' rs' d, s_update s rs ts = Some (ts', rs') /\ In (d, Fin w) rs') /\
    map (fun x => tg_r (snd x)) new = map Fin rs /\
    Permutation rs (birth_rs r_lim rB_max (s_lambdaB s) ws) /\
    (forall x, In x new -> tg_new (snd x) = true /\ tg_t0 (snd x) = s_time s /\ exists d, tg_pdf (snd x) = s_init s d).
Proof.
  intros Hr Hc Hs Hw H. destruct (correct_births_on (fun _ _ => True) s st st' Hr Hc Hs) as (old & new & ws & rs & H1 & H2 & H3 & H4 & H5 & H6 & H7); auto.
  { intros rs ts ts' rs' E _. exact (Hw _ _ _ _ E). }
  exists old, new, ws, rs. repeat (split; [assumption|]). split; [|exact H7].
  intros w Hin. destruct (H6 w Hin) as (a & b & c & d & e & E & Hx & _). eauto 10.
Qed.

(** ** Any two executions of a correction *)
Lemma phase2_unique (s : correction) (st : tracker) st1 scan cls newt newr newt' newr' affected st2 scan2 st2' scan2' :
  plan box s st affected st1 scan cls newt newr -> plan box s st affected st1 scan cls newt' newr' ->
  phase2 box covnorm r_lim cov_lim s st st1 scan cls newt newr st2 scan2 ->
  phase2 box covnorm r_lim cov_lim s st st1 scan cls newt' newr' st2' scan2' ->
  live st2 = live st2' /\ scan2 = scan2' /\ next_id st2 = next_id st2' /\ forall a, heap st2 a = heap st2' a.
Proof.
  intros Hp Hp' [Q1 Q2 Q3 Q4 Q5 Q6] [R1 R2 R3 R4 R5 R6].
  assert (Hagree : forall (V : Type) (f : cluster -> list nat) (v : cluster -> list V) (n n' : nat -> option V),
    (forall c, In c cls -> map n (f c) = map Some (v c)) -> (forall c, In c cls -> map n' (f c) = map Some (v c)) ->
    forall a, In a (concat (map f cls)) -> n a = n' a).
  { intros V f v n n' H1 H2 a Ha. apply in_part in Ha. destruct Ha as (k & c & Hk & Ha). apply nth_error_In in Hk.
    specialize (H1 c Hk). specialize (H2 c Hk). rewrite <- H2 in H1. apply In_nth_error in Ha. destruct Ha as (i & Hi).
    apply (f_equal (fun l => nth_error l i)) in H1. rewrite !nth_error_map, Hi in H1. simpl in H1. congruence. }
  assert (Hh : forall a, heap st2 a = heap st2' a).
  { intros a. rewrite Q2, R2. destruct (heap st a); auto. unfold after, clusteredb.
    destruct (existsb (Nat.eqb a) (concat (map cl_targets cls))) eqn:Ex; auto. apply existsb_nat in Ex. f_equal.
    apply (Hagree _ _ _ _ _ (p_newt _ _ _ _ _ _ _ _ _ Hp) (p_newt _ _ _ _ _ _ _ _ _ Hp')). auto. }
  assert (Ht : targets st2 = targets st2').
  { rewrite Q3, R3. apply filter_ext_in'. intros a _. rewrite Hh. reflexivity. }
  split; [|split; [|split; [congruence|exact Hh]]].
  - unfold live. rewrite Ht. rewrite !flat_map_concat_map. f_equal. apply map_ext. intros a. rewrite Hh. reflexivity.
  - apply nth_error_ext. intros j. rewrite Q5, R5. destruct (nth_error scan j) eqn:E; auto.
    assert (En : newr j = newr' j); [|rewrite En; auto].
    apply (Hagree _ _ _ _ _ (p_newr _ _ _ _ _ _ _ _ _ Hp) (p_newr _ _ _ _ _ _ _ _ _ Hp')).
    apply (p_scan _ _ _ _ _ _ _ _ _ Hp). apply nth_error_Some. congruence.
Qed.

Lemma correct_confluent (s : correction) (st st' st'' : tracker) : consistent box st -> sane_correction s ->
  correct_call s st (Ok st') -> correct_call s st (Ok st'') ->
  exists old new' new'', live st' = old ++ new' /\ live st'' = old ++ new'' /\
    Permutation (map content new') (map content new'') /\ next_id st' = next_id st'' /\
    ids st' = ids st''.
Proof.
  intros Hc Hs H' H''. pose proof (correct_ok s st _ Hc Hs H') as X'. pose proof (correct_ok s st _ Hc Hs H'') as X''.
  cbn beta iota in X', X''.
  destruct X' as [(l & st1 & scan & cls & newt & newr & st2 & scan2 & new & order & Hp & Hl & E & Hq & Hc' & Hg & Hperm & Ha)].
  destruct X'' as [(l0 & st10 & scan0 & cls0 & newt0 & newr0 & st20 & scan20 & new0 & order0 & Hp0 & Hl0 & E0 & Hq0 & Hc0 & Hg0 & Hperm0 & Ha0)].
  rewrite E in E0. inversion E0; subst l0.
  pose proof (p_make _ _ _ _ _ _ _ _ _ Hp) as Em. pose proof (p_make _ _ _ _ _ _ _ _ _ Hp0) as Em0. rewrite Em in Em0.
  inversion Em0; subst st10 scan0 cls0.
  destruct (phase2_unique s st _ _ _ _ _ _ _ _ _ _ _ _ Hp Hp0 Hq Hq0) as (El & Esc & En & _). subst scan20.
  exists (live st2), new, new0. destruct Hg as [G1 G2 G3 G4 G5]. destruct Hg0 as [G10 G20 G30 G40 G50].
  assert (Hpm : Permutation (map content new) (map content new0)).
  { rewrite Ha, Ha0. destruct (nle extR (Fin r_lim) (rB_sum scan2)); auto. apply Permutation_flat_map'.
    etransitivity; [exact Hperm|symmetry; exact Hperm0]. }
  assert (Hlen : length new = length new0).
  { rewrite <- (map_length content new), <- (map_length content new0). apply Permutation_length. auto. }
  split; auto. split; [congruence|]. split; auto. split; [congruence|].
  unfold ids. rewrite G1, G10, !map_app, El. f_equal. rewrite G2, G20, En, Hlen. reflexivity.
Qed.

Lemma correct_ends (s : correction) (st st' : tracker) : consistent box st -> sane_correction s ->
  correct_call s st (Ok st') -> ~ correct_call s st OutOfFuel.
Proof.
  intros Hc Hs H' H''. pose proof (correct_ok s st _ Hc Hs H') as X'. cbn beta iota in X'.
  destruct X' as [(l & st1 & scan & cls & newt & newr & st2 & scan2 & new & order & Hp & Hl & E & Hq & Hc' & Hg & Hperm & Ha)].
  inversion H'' as [| E2 |l' o E2 Hr Eo]; [congruence|]. subst o. rewrite E in E2. inversion E2; subst l'.
  destruct (in_view_plan s st Hc Hs) as (l0 & _ & _ & _ & _ & _ & E3 & _ & Hlive & Hn & _). rewrite E in E3. inversion E3; subst l0.
  pose proof (correct_rest_ok unit unit_pos box box_real covnorm r_lim cov_lim rB_max s st Hc l _ _ _ _ _ Hp _ Hr) as X.
  cbn beta iota in X. destruct X as (c & Hcin & Ho). exact (q_done _ _ _ _ _ _ _ _ _ _ _ _ _ Hq c Hcin Ho).
Qed.

(** ** Invariants of targets *)
Lemma old_reports_length (s : correction) (st : tracker) affected st1 scan cls newt newr c :
  plan box s st affected st1 scan cls newt newr -> In c cls -> Peano.le (length (old_reports scan c)) (length (s_scan s)).
Proof.
  intros Hp Hcin. rewrite <- (p_len _ _ _ _ _ _ _ _ _ Hp).
  assert (H1 : Peano.le (length (old_reports scan c)) (length (cl_reports c))).
  { unfold old_reports. induction (cl_reports c) as [|j l IH]; simpl; [lia|]. rewrite app_length. destruct (nth_error scan j); simpl; lia. }
  assert (Hn : NoDup (cl_reports c)).
  { pose proof (k_reports_once _ _ _ _ _ _ _ _ (p_clustering _ _ _ _ _ _ _ _ _ Hp)) as Hn. apply in_split in Hcin.
    destruct Hcin as (l1 & l2 & ->). rewrite map_app, concat_app in Hn. simpl in Hn.
    apply NoDup_app_inv in Hn. destruct Hn as (_ & Hn & _). apply NoDup_app_inv in Hn. tauto. }
  assert (H2 : Peano.le (length (cl_reports c)) (length (seq 0 (length scan)))).
  { apply NoDup_incl_length; auto. intros j Hj. apply in_seq. split; [lia|]. simpl.
    apply (p_scan _ _ _ _ _ _ _ _ _ Hp). apply in_concat. exists (cl_reports c). split; auto. apply in_map. auto. }
  rewrite seq_length in H2. lia.
Qed.


Definition all_targets (I : ext R -> P -> Prop) (st : tracker) : Prop :=
  forall x, In x (live st) -> I (tg_r (snd x)) (tg_pdf (snd x)).

Lemma correct_inv (I : ext R -> P -> Prop) (s : correction) (st st' : tracker) : (0 < r_lim)%R -> (0 <= rB_max <= 1)%R ->
  consistent box st -> sane_correction s -> keeps covnorm r_lim cov_lim I (Correct s) -> correct_call s st (Ok st') ->
  all_targets I st -> all_targets I st'.
Proof.
  intros Hr Hm Hc Hs (Hw & Hlam & Hbirth & Hup) H Hall.
  destruct (correct_births_on I s st st' Hr Hc Hs Hw Hall H) as (old & new & ws & rs & El & En & Hold & Hlen & Hws & Hsrc & Er & Hperm & Hnew).
  pose proof (correct_ok s st _ Hc Hs H) as Hx. cbn beta iota in Hx.
  destruct Hx as [(l & st1 & scan & cls & newt & newr & st2 & scan2 & new2 & order & Hp & Hl & E & Hq & Hc' & Hg & Hpo & Ha)].
  destruct Hg as [G1 G2 G3 G4 G5]. destruct Hq as [Q1 Q2 Q3 Q4 Q5 Q6].
  assert (Hlen2 : length new2 = length new) by (rewrite Q4 in G3; lia).
  assert (Enew : old = live st2 /\ new = new2).
  { rewrite El in G1. apply app_inj_2; auto. }
  destruct Enew as (-> & <-).
  intros x Hx. rewrite El in Hx. apply in_app_or in Hx. destruct Hx as [Hx|Hx].
  - destruct x as (a & t'). apply live_In in Hx; [|apply Q1]. rewrite Q2 in Hx. destruct (heap st a) as [t|] eqn:Et; [|discriminate].
    cbn [snd]. unfold after, clusteredb in Hx. destruct (existsb (Nat.eqb a) (concat (map cl_targets cls))) eqn:Ex.
    + apply existsb_nat in Ex. apply kept_fit in Hx. destruct Hx as (Hn & Hfit).
      destruct (clustered_values box s st Hc l _ _ _ _ _ Hp a Ex) as (c & i & u & u' & Hcin & Hi & Eu & Eu' & Eo & E').
      rewrite Hn in Eu'. inversion Eu'; subst u'. apply nth_error_In in E'. unfold new_targets in E'. specialize (Q6 c Hcin).
      destruct (outcome s st1 scan c) as [[ts rs']|] eqn:Eout; [|congruence].
      assert (Hf : Forall (fun t => I (tg_r t) (tg_pdf t)) (old_targets st1 c)).
      { apply Forall_forall. intros v Hv. destruct (old_targets_live s st _ _ _ _ _ _ c v Hc Hp Hcin Hv) as (b & w0 & Hin & E1 & E2).
        rewrite E1, E2. exact (Hall _ Hin). }
      assert (Hlr : Peano.le (length (old_reports scan c)) (length (s_scan s))) by (eapply old_reports_length; eauto).
      specialize (Hup _ _ _ _ Eout Hf Hlr). rewrite Forall_forall in Hup. auto.
    + inversion Hx; subst. apply (Hall (a, t')). apply live_In; auto. apply Hc.
  - destruct (Hnew x Hx) as (_ & _ & d & Ed). rewrite Ed.
    apply (in_map (fun x => tg_r (snd x))) in Hx. rewrite Er in Hx. apply in_map_iff in Hx. destruct Hx as (r & E1 & Hin).
    rewrite <- E1. eapply Permutation_in in Hin; [|exact Hperm]. destruct (birth_rs_bounds _ _ _ _ _ Hin) as (B1 & B2).
    apply Hbirth. destruct B2 as [->|B2]; lra.
Qed.

Lemma calls_inv (I : ext R -> P -> Prop) st (cs : list call) o : (0 < r_lim)%R -> (0 <= rB_max <= 1)%R -> calls st cs o ->
  consistent box st -> Forall sane_call cs ->
  Forall (keeps covnorm r_lim cov_lim I) cs -> all_targets I st -> forall st', o = Ok st' -> all_targets I st'.
Proof.
  intros Hr Hm. induction 1 as [st|st c cs st1 o Hc Hcs IH|st c cs Hc|st c cs Hc]; intros Hok Hs Hp Hall st' E; try discriminate.
  - inversion E; subst. auto.
  - inversion Hs as [|? ? H1 H2]; subst. inversion Hp as [|? ? P1 P2]; subst.
    destruct (call_ok _ _ _ Hok H1 Hc) as (g & new & He). apply IH; auto; [apply (e_ok _ _ _ _ He)|].
    inversion Hc as [f E1 E2|s o0 Hcc E1 E2]; subst.
    + intros [a t] Hin. destruct (predict_ok unit unit_pos box box_real covnorm r_lim cov_lim f st Hok) as (st2 & Ep & Hc' & _ & Hh & _).
      assert (st2 = st1) by congruence; subst st2. apply live_In in Hin; [|apply Hc']. rewrite Hh in Hin.
      destruct (heap st a) as [t0|] eqn:Et; [|discriminate]. apply kept_fit in Hin. destruct Hin as (Hin & Hfit). inversion Hin; subst.
      cbn [snd]. apply P1; auto. apply (Hall (a, t0)). apply live_In; auto. apply Hok.
    + eapply correct_inv; eauto.
Qed.

(** ** Probabilities *)
Definition all_prob (st : tracker) : Prop := forall x, In x (live st) -> prob (tg_r (snd x)).

Lemma prob_keeps (c : call) : prob_call c -> keeps covnorm r_lim cov_lim (fun r _ => prob r) c.
Proof.
  destruct c as [f|s]; intros H.
  - intros a t Ht _. apply H, Ht.
  - destruct H as (Hw & Hl & Hup). split; [intros rs ts ts' rs' E _; exact (Hw _ _ _ _ E)|]. split; auto. split; [intros r d Hr; exists r; auto|].
    intros rs ts ts' rs' E HI _. eapply Forall_impl; [|eapply Hup; eauto]. auto.
Qed.

Lemma calls_prob st (cs : list call) o : (0 < r_lim)%R -> (0 <= rB_max <= 1)%R -> calls st cs o -> consistent box st -> Forall sane_call cs ->
  Forall prob_call cs -> all_prob st -> forall st', o = Ok st' -> all_prob st'.
Proof.
  intros Hr Hm Hcs Hok Hs Hp Hall st' E. eapply (calls_inv (fun r _ => prob r)); eauto.
  eapply Forall_impl; [|exact Hp]. apply prob_keeps.
Qed.

(** ** Read-only calls *)
Lemma deref_sel (st : tracker) (l : list addr) : listed st -> (forall a, In a l -> heap st a <> None) ->
  exists sel : list (addr * target), map fst sel = l /\ (forall x, In x sel <-> In (fst x) l /\ heap st (fst x) = Some (snd x)).
Proof.
  intros Hls. induction l as [|a l IH]; intros H.
  - exists []. split; auto. simpl. tauto.
  - destruct IH as (sel & E & Hsel); [intros; apply H; simpl; auto|].
    pose proof (H a ltac:(simpl; auto)) as Ha. destruct (heap st a) as [t|] eqn:Et; [|congruence].
    exists ((a, t) :: sel). split; [simpl; congruence|]. intros (b & u). cbn [In fst snd]. rewrite Hsel. cbn [fst snd]. split.
    + intros [Ex|[H1 H2]]; [inversion Ex; subst; auto|auto].
    + intros [[->|H1] H2]; [left; congruence|auto].
Qed.

Lemma query_inside (st : tracker) q : consistent box st -> real_corners q ->
  exists sel, query q st = Ok (map fst sel) /\ inside box q st sel.
Proof.
  intros Hc Hq. destruct (query_ok box st q Hc Hq) as (l & E & Hn & Hl).
  destruct (deref_sel st l (proj1 Hc)) as (sel & Es & Hsel). { intros a Ha. apply Hl in Ha. destruct Ha as (t & Et & _). congruence. }
  exists sel. split; [congruence|]. split.
  - eapply NoDup_map_inv. rewrite Es. auto.
  - intros (a & t). rewrite Hsel. cbn [fst snd]. split.
    + intros (Ha & Et). apply Hl in Ha. destruct Ha as (t' & Et' & Hm). split; [apply live_In; auto; apply Hc|congruence].
    + intros (Hin & Hm). apply live_In in Hin; [|apply Hc]. split; auto. apply Hl. eauto.
Qed.

Definition holds (st : tracker) (sel : list (addr * target)) : Prop := forall x, In x sel -> heap st (fst x) = Some (snd x).

Lemma r_sum_sel (st : tracker) sel : holds st sel -> (forall x, In x sel -> prob (tg_r (snd x))) ->
  exists rs, map (fun x => tg_r (snd x)) sel = map Fin rs /\ r_sum st (map fst sel) = Ok (Fin (Rsum rs)).
Proof.
  intros Hh Hp. assert (H : exists rs, map (fun x => tg_r (snd x)) sel = map Fin rs /\ forall x0,
    for_each (fun a x => t <- deref st a;; Ok (nadd extR x (tg_r t))) (map fst sel) (Fin x0) = Ok (Fin (x0 + Rsum rs)%R)).
  { induction sel as [|[a t] sel IH].
    - exists []. split; auto. intros x0. unfold Rsum. simpl. rewrite Rplus_0_r. auto.
    - destruct IH as (rs & E & Hs); [intros x Hx; apply Hh; simpl; auto|intros x Hx; apply Hp; simpl; auto|].
      destruct (Hp (a, t) ltac:(simpl; auto)) as (r & Er & _). cbn [snd] in Er.
      exists (r :: rs). split; [simpl; congruence|]. intros x0. cbn [map fst for_each]. unfold deref at 1.
      rewrite (Hh (a, t) ltac:(simpl; auto) : heap st a = Some t). cbn [bind]. rewrite Er, add_FF, Hs.
      unfold Rsum. simpl. f_equal. f_equal. lra. }
  destruct H as (rs & E & Hs). exists rs. split; auto. unfold r_sum. rewrite Hs, Rplus_0_l. auto.
Qed.

Lemma r_count_sel (st : tracker) lim sel : holds st sel ->
  r_count lim st (map fst sel) = Ok (length (filter (fun x => nle extR (Fin lim) (tg_r (snd x))) sel)).
Proof.
  intros Hh. unfold r_count. change (length (filter (fun x => nle extR (Fin lim) (tg_r (snd x))) sel)) with
    (0 + length (filter (fun x => nle extR (Fin lim) (tg_r (snd x))) sel)). generalize 0 as n.
  induction sel as [|[a t] sel IH]; intros n; cbn [map fst for_each filter snd].
  - rewrite Nat.add_0_r. auto.
  - unfold deref at 1. rewrite (Hh (a, t) ltac:(simpl; auto) : heap st a = Some t). cbn [bind].
    rewrite IH by (intros x Hx; apply Hh; simpl; auto). destruct (nle extR (Fin lim) (tg_r t)); cbn [length]; f_equal; lia.
Qed.

Lemma summaries_sel {S} (summary : P -> S) (st : tracker) sel : holds st sel ->
  summaries summary st (map fst sel) = Ok (map (fun x => (summary (tg_pdf (snd x)), tg_r (snd x), tg_id (snd x), tg_cid (snd x))) sel).
Proof.
  intros Hh. unfold summaries. induction sel as [|[a t] sel IH]; cbn [map fst map_res]; auto.
  unfold deref at 1. rewrite (Hh (a, t) ltac:(simpl; auto) : heap st a = Some t). cbn [bind].
  rewrite IH by (intros x Hx; apply Hh; simpl; auto). reflexivity.
Qed.

Lemma inside_holds (st : tracker) q sel : listed st -> inside box q st sel -> holds st sel.
Proof. intros Hls (_ & H) [a t] Hx. apply H in Hx. destruct Hx as (Hx & _). apply live_In in Hx; auto. Qed.
Lemma live_holds (st : tracker) : listed st -> holds st (live st).
Proof. intros Hls [a t] Hx. apply live_In in Hx; auto. Qed.
End Hist.
