(** Properties C55, C56 and C63-C66: the particle filter (include/pf.hpp), over
    the reals.

    [srt] is std::sort of indices by decreasing weight; [ll2ne], [ne2ll], [pos],
    [gauss_box], [llbox] stand for the coordinate and box functions. *)
From Coq Require Import List Arith Bool Reals Lra Lia Permutation Sorted.
Import ListNotations.
From Verif Require Import Res Scalar PF PFSpec PFProofs PFMoments.
Local Open Scope R_scope.

(** An insertion sort, for the examples. *)
Fixpoint ins (w : list R) (i : nat) (l : list nat) : list nat :=
  match l with [] => [i] | j :: l' => if Rltb (nth i w 0) (nth j w 0) then j :: ins w i l' else i :: l end.
Definition isort (w : list R) (l : list nat) : list nat := fold_right (ins w) [] l.

Lemma ins_perm w i l : Permutation (ins w i l) (i :: l).
Proof. induction l as [|j l IH]; cbn; auto. destruct (Rltb _ _); auto. rewrite IH. apply perm_swap. Qed.
Lemma ins_sorted w i l : StronglySorted (fun i j => nth i w 0 >= nth j w 0) l -> StronglySorted (fun i j => nth i w 0 >= nth j w 0) (ins w i l).
Proof.
  intros HS. induction HS as [|k s HS IH HF]; cbn; [repeat constructor|].
  destruct (Rltb_spec (nth i w 0) (nth k w 0)) as [Hlt|Hge].
  - constructor; auto. apply Forall_forall. intros m Hm. apply (Permutation_in _ (ins_perm w i s)) in Hm. destruct Hm as [<-|Hm]; [lra|].
    rewrite Forall_forall in HF. auto.
  - constructor; [constructor; auto|]. constructor; [lra|]. eapply Forall_impl; [|exact HF]. cbn. intros m Hm. lra.
Qed.
Lemma isort_valid : valid_sort isort.
Proof.
  intros w l. split.
  - induction l as [|i l IH]; cbn; auto. rewrite ins_perm. auto.
  - induction l as [|i l IH]; cbn; [constructor|]. apply ins_sorted. auto.
Qed.

Section C55.
Context {X L B : Type}.
Variable N : nat.
Variable srt : list R -> list nat -> list nat.
Variables (ll2ne ne2ll : L -> X -> X) (pos : list R -> list X -> L) (gauss_box : list R -> list X -> B) (llbox : L -> B -> B).
Notation run := (run N srt ll2ne ne2ll gauss_box llbox).
Notation construct := (construct N ll2ne ne2ll pos gauss_box llbox).

(** *** C55: after any history a resampling changes nothing, an update of the
    box changes nothing, and the box is the constructor's box [b] carried through
    changes of frame only: no particle ever enters it. *)
Theorem C55_never_resampled : forall w x e b o os p u,
  run os (construct w x e b o) = Ok p ->
  resample N u p = Ok p /\ update_local_bbox gauss_box p = p /\
  exists ors, bbox p = fold_left (fun b o => llbox o b) ors b.
Proof.
  intros w x e b o os p u Hr. pose proof (run_invalid N srt ll2ne ne2ll gauss_box llbox os _ _ (construct_invalid N ll2ne ne2ll pos gauss_box llbox w x e b o) Hr) as Hv.
  split; [apply resample_invalid; auto|]. split; [apply update_invalid; auto|].
  destruct (run_box N srt ll2ne ne2ll gauss_box llbox os _ _ (construct_invalid N ll2ne ne2ll pos gauss_box llbox w x e b o) Hr) as [ors E].
  eexists (pos w x :: ors). exact E.
Qed.
End C55.
Print Assumptions C55_never_resampled.

(** The property is false: a set of two particles, corrected with likelihoods 1
    and 3 and joined, has the weights 3/4 and 1/4 instead of 1/2 and 1/2. *)
Definition two (a b : R) : pf R unit unit := mkPf [a; b] [1; 3] false 1 [0; 1]%nat tt tt.
Theorem C55_resampled_refuted : exists p',
  join 2 isort (1 / 2) (two (1/2) (1/2)) [1] [fst (correct (fun _ _ => 1) (fun _ x => x) (two (1/2) (1/2)))] = Ok p' /\
  pw p' = [3 / 4; 1 / 4] /\ pw p' <> repeat (1 / INR 2) 2.
Proof.
  set (q := fst (correct (fun _ _ => 1) (fun _ x => x) (two (1 / 2) (1 / 2)))).
  assert (Eq : pw q = [1 / 4; 3 / 4]).
  { unfold q, correct, normalize. cbn. destruct (Rltb_spec (1 / 100000000) (1 / 2 * (1 * 1) + (1 / 2 * (1 * 3) + 0))); cbn; [|lra].
    f_equal; [field|f_equal; field]. }
  assert (Ex : px q = [1; 3]) by (unfold q, correct; cbn [fst]; rewrite normalize_px; reflexivity).
  assert (Ep : perm q = [0; 1]%nat) by (unfold q, correct; cbn [fst]; rewrite normalize_perm; reflexivity).
  assert (Es : isort [1 / 4; 3 / 4] [0; 1]%nat = [1; 0]%nat).
  { cbn. destruct (Rltb_spec (1 / 4) (3 / 4)); [reflexivity|lra]. }
  unfold join. cbn [map prepare_sort]. unfold prepare_sort. rewrite Eq, Ex, Ep, Es. cbn. unfold normalize. cbn.
  destruct (Rltb_spec (1 / 100000000) (1 * (3 / 4) + (1 * (1 / 4) + 0))); cbn; [|lra].
  eexists. split; [reflexivity|]. cbn.
  replace (1 * (3 / 4) / (1 * (3 / 4) + (1 * (1 / 4) + 0))) with (3 / 4) by field.
  replace (1 * (1 / 4) / (1 * (3 / 4) + (1 * (1 / 4) + 0))) with (1 / 4) by field.
  split; [reflexivity|]. intros [= H _]. lra.
Qed.
Print Assumptions C55_resampled_refuted.

(** *** C56 *)
Theorem C56_join_heaviest : forall (X L B : Type) N srt (x0 : X) u (p : pf X L B) aw ps,
  valid_sort srt -> (0 < N)%nat -> length aw = length ps -> ps <> [] -> (forall a, In a aw -> 0 <= a) ->
  (forall q, In q ps -> length (pw q) = N /\ length (px q) = N /\ Permutation (perm q) (seq 0 N)) -> valid p = false ->
  exists p' ch, join N srt u p aw ps = Ok p' /\ heaviest N aw (map pw ps) ch /\
    let raw := map (scaled aw (map pw ps)) ch in
    pw p' = (if Rltb (1 / 100000000) (rsum raw) then map (fun a => a / rsum raw) raw else raw) /\
    eta p' = (if Rltb (1 / 100000000) (rsum raw) then rsum raw else 0) /\
    px p' = map (fun c => nth (snd c) (nth (fst c) (map px ps) []) x0) ch /\ valid p' = false.
Proof. intros X L B N srt x0 u p aw ps Hs. exact (join_ok N srt Hs x0 u p aw ps). Qed.
Print Assumptions C56_join_heaviest.

(** Two sets of two particles: weights 1/5, 4/5 and 1/2, 1/2, scaled by 1/2 and
    1/4: kept are the second particle of the first set and one of the second. *)
Example ex_join : let ps := [mkPf [1/5; 4/5] [10; 11] false 1 [0; 1]%nat tt tt; mkPf [1/2; 1/2] [20; 21] false 1 [1; 0]%nat tt tt] : list (pf R unit unit) in
  let aw := [1/2; 1/4] in
  length aw = length ps /\ ps <> [] /\ (forall a, In a aw -> 0 <= a) /\
  (forall q, In q ps -> length (pw q) = 2%nat /\ length (px q) = 2%nat /\ Permutation (perm q) (seq 0 2)) /\
  valid_sort isort /\ heaviest 2 aw (map pw ps) [(0, 1); (1, 0)]%nat /\ heaviest 2 aw (map pw ps) [(0, 1); (1, 1)]%nat /\
  ~ heaviest 2 aw (map pw ps) [(0, 1); (0, 0)]%nat.
Proof.
  cbn zeta. split; [reflexivity|]. split; [discriminate|]. split; [intros a [<-|[<-|[]]]; lra|]. split; [intros q [<-|[<-|[]]]; cbn; repeat split; auto; apply perm_swap|].
  split; [exact isort_valid|].
  assert (Hall : forall d, exists_particle [[1/5; 4/5]; [1/2; 1/2]] d -> d = (0, 0)%nat \/ d = (0, 1)%nat \/ d = (1, 0)%nat \/ d = (1, 1)%nat).
  { intros [j k] [H1 H2]. cbn in *. destruct j as [|[|]]; cbn in *; [| |lia]; destruct k as [|[|]]; auto; lia. }
  split; [|split].
  - split; [reflexivity|]. split; [repeat constructor; cbn; intuition congruence|]. split; [intros c [<-|[<-|[]]]; unfold exists_particle; cbn; lia|].
    split; [repeat constructor; unfold scaled; cbn; lra|]. cbn [map pw]. intros c d Hc Hd Hn. apply Hall in Hd.
    destruct Hc as [<-|[<-|[]]]; destruct Hd as [->|[->|[->| ->]]]; unfold scaled; cbn in *; try lra; exfalso; auto.
  - split; [reflexivity|]. split; [repeat constructor; cbn; intuition congruence|]. split; [intros c [<-|[<-|[]]]; unfold exists_particle; cbn; lia|].
    split; [repeat constructor; unfold scaled; cbn; lra|]. cbn [map pw]. intros c d Hc Hd Hn. apply Hall in Hd.
    destruct Hc as [<-|[<-|[]]]; destruct Hd as [->|[->|[->| ->]]]; unfold scaled; cbn in *; try lra; exfalso; auto.
  - intros (_ & _ & _ & _ & H). specialize (H (0, 0)%nat (1, 0)%nat). unfold scaled, exists_particle in H. cbn in H.
    assert (~ (1 / 2 * (1 / 5) >= 1 / 4 * (1 / 2))) by lra. apply H0, H; auto. intros [E|[E|[]]]; discriminate.
Qed.

(** *** C63: a missed detection *)
(** The likelihood returned is right up to 1e-8 ... *)
Theorem C63_missed_likelihood : forall (X L B : Type) (pd : L -> X -> R) (p : pf X L B),
  length (pw p) = length (px p) -> rsum (pw p) = 1 -> (forall a, In a (pw p) -> 0 <= a) -> (forall o x, 0 <= pd o x) ->
  let m := rsum (map (fun a => fst a * (1 - pd (origin p) (snd a))) (combine (pw p) (px p))) in
  m <= snd (missed pd p) <= m + 1 / 100000000.
Proof. intros X L B. exact missed_value. Qed.
Print Assumptions C63_missed_likelihood.

(** ... but the weights left are those of a detection without a measurement, not
    those of a miss: a particle is multiplied by pD and not by 1 - pD. *)
Theorem C63_missed_weights_wrong : forall (X L B : Type) (pd : L -> X -> R) (p : pf X L B),
  let raw := map (fun a => fst a * pd (origin p) (snd a)) (combine (pw p) (px p)) in
  pw (fst (missed pd p)) = if Rltb (1 / 100000000) (rsum raw) then map (fun a => a / rsum raw) raw else raw.
Proof. intros X L B. exact missed_weights. Qed.
Print Assumptions C63_missed_weights_wrong.

(** A target none of whose particles can be seen ends with all weights 0. *)
Theorem C63_unseen_target_lost : forall (X L B : Type) (pd : L -> X -> R) (p : pf X L B),
  (forall x, In x (px p) -> pd (origin p) x = 0) -> forall a, In a (pw (fst (missed pd p))) -> a = 0.
Proof. intros X L B. exact missed_unseen. Qed.
Print Assumptions C63_unseen_target_lost.

(** One particle in view (detected surely), one out of view: after a miss the
    target must be out of view, the filter says it is in view. *)
Theorem C63_missed_bayes_refuted : exists (p : pf bool unit unit) (pd : unit -> bool -> R),
  pw p = [1/2; 1/2] /\ px p = [true; false] /\ (forall o x, pd o x = if x then 1 else 0) /\
  map (fun a => fst a * (1 - pd (origin p) (snd a))) (combine (pw p) (px p)) = [0; 1/2] /\
  pw (fst (missed pd p)) = [1; 0].
Proof.
  exists (mkPf [1/2; 1/2] [true; false] false 1 [0; 1]%nat tt tt), (fun (_ : unit) (x : bool) => if x then 1 else 0).
  split; [reflexivity|]. split; [reflexivity|]. split; [reflexivity|]. split; [cbn; repeat (f_equal; try ring)|].
  rewrite missed_weights. cbn. destruct (Rltb_spec (1 / 100000000) (1 / 2 * 1 + (1 / 2 * 0 + 0))); [|lra]. f_equal; [field|f_equal; field].
Qed.
Print Assumptions C63_missed_bayes_refuted.

Example ex_missed : let p := two (1/4) (3/4) in length (pw p) = length (px p) /\ rsum (pw p) = 1 /\ (forall a, In a (pw p) -> 0 <= a) /\
  (forall x, In x (px p) -> (fun (_ : unit) (_ : R) => 0) (origin p) x = 0) /\ pw (fst (missed (fun _ _ => 0) p)) = [1/4 * 0; 3/4 * 0].
Proof.
  cbn zeta. split; [reflexivity|]. split; [unfold rsum; cbn; lra|]. split; [intros a [<-|[<-|[]]]; lra|]. split; [auto|].
  rewrite missed_weights. cbn. destruct (Rltb_spec (1 / 100000000) (1 / 4 * 0 + (3 / 4 * 0 + 0))); [lra|reflexivity].
Qed.

(** *** C64 *)
Theorem C64_effective_number : forall (X L B : Type) (p : pf X L B),
  (forall a, In a (pw p) -> 0 <= a) -> rsum (pw p) = 1 -> 1 <= neff p <= INR (length (pw p)).
Proof. intros X L B. exact neff_bounds. Qed.
Print Assumptions C64_effective_number.

Example ex_neff : (forall a, In a (pw (two (1/4) (3/4))) -> 0 <= a) /\ rsum (pw (two (1/4) (3/4))) = 1 /\ neff (two (1/4) (3/4)) = 8 / 5.
Proof. split; [intros a [<-|[<-|[]]]; lra|]. split; [unfold rsum; cbn; lra|]. unfold neff, rsum. cbn. field. Qed.

(** *** C65 *)
Theorem C65_mean_between : forall w x a lo hi, length w = length x -> (forall b, In b w -> 0 <= b) -> rsum w = 1 ->
  (forall c, In c x -> lo <= c a <= hi) -> lo <= pmean w x a <= hi.
Proof. exact pmean_between. Qed.
Print Assumptions C65_mean_between.

Theorem C65_covariance : forall S w x, (forall b, In b w -> 0 <= b) -> (forall a b, pcov w x a b = pcov w x b a) /\ psd S (pcov w x).
Proof. intros S w x H. split; [apply pcov_sym|apply pcov_psd; auto]. Qed.
Print Assumptions C65_covariance.

(** Two particles (0, 0) and (4, 8) with weights 3/4 and 1/4. *)
Example ex_moments : let w := [3/4; 1/4] in let x := [fun _ => 0; fun a => match a with O => 4 | _ => 8 end] in
  length w = length x /\ (forall b, In b w -> 0 <= b) /\ rsum w = 1 /\ (forall c, In c x -> 0 <= c 1%nat <= 8) /\
  pmean w x 0 = 1 /\ pmean w x 1 = 2 /\ pcov w x 0 0 = 3 /\ pcov w x 0 1 = 6 /\ pcov w x 1 1 = 12.
Proof.
  cbn zeta. split; [reflexivity|]. split; [intros a [<-|[<-|[]]]; lra|]. split; [unfold rsum; cbn; lra|]. split; [intros c [<-|[<-|[]]]; lra|].
  unfold pcov, pmean, rsum. cbn. repeat split; field.
Qed.

(** *** C66 *)
Section C66.
Context {X L B : Type}.
Variable N : nat.
Variable srt : list R -> list nat -> list nat.
Variables (ll2ne ne2ll : L -> X -> X) (pos : list R -> list X -> L) (gauss_box : list R -> list X -> B) (llbox : L -> B -> B).
Notation run := (run N srt ll2ne ne2ll gauss_box llbox).
Notation construct := (construct N ll2ne ne2ll pos gauss_box llbox).

(** Any history of calls with non-negative detection probabilities and likelihoods
    runs through without reading outside an array; the weights stay N
    non-negative numbers, and after each call that normalises they add up to 1
    or the density is marked lost (eta = 0). *)
Theorem C66_weights_over_histories : forall x e b o os,
  valid_sort srt -> (0 < N)%nat -> length x = N -> Forall (fair N) os ->
  exists p, run os (construct (repeat (1 / INR N) N) x e b o) = Ok p /\
    length (pw p) = N /\ length (px p) = N /\ (forall a, In a (pw p) -> 0 <= a) /\
    (forall os' c, os = os' ++ [c] -> normalises c = true -> rsum (pw p) = 1 \/ eta p = 0).
Proof.
  intros x e b o os Hs HN Hx Hf. pose proof (construct_good N ll2ne ne2ll pos gauss_box llbox HN x e b o Hx) as Hg.
  destruct (run_good N srt ll2ne ne2ll gauss_box llbox Hs HN os _ Hf Hg) as (p & Hr & ((H1 & H2 & _) & _ & H3)).
  exists p. split; auto. split; auto. split; auto. split; auto. intros os' c -> Hn.
  exact (run_last N srt ll2ne ne2ll gauss_box llbox Hs HN os' c _ _ Hf Hg Hn Hr).
Qed.
End C66.
Print Assumptions C66_weights_over_histories.

(** A history: prediction, correction, miss, join with a corrected copy. *)
Example ex_history : Forall (fair 2) ([OMove (fun x => x + 1); OCorrect (fun _ _ => 1 / 2) (fun _ x => x * x); OMissed (fun _ _ => 1 / 2);
    OJoin (1 / 2) [1 / 3; 2 / 3] [two (1/4) (3/4); two (1/2) (1/2)]] : list (@op R unit unit)).
Proof.
  assert (G : forall a b, 0 <= a -> 0 <= b -> good 2 (two a b)).
  { intros a b Ha Hb. split; [split; [reflexivity|split; [reflexivity|apply Permutation_refl]]|]. split; [reflexivity|]. intros c [<-|[<-|[]]]; auto. }
  constructor; [exact I|]. constructor; [cbn; intros; split; nra|]. constructor; [cbn; intros; lra|]. constructor; [|constructor].
  cbn. split; [reflexivity|]. split; [discriminate|]. split; [intros a [<-|[<-|[]]]; lra|]. intros q [<-|[<-|[]]]; apply G; lra.
Qed.
