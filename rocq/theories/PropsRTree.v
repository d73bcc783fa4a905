(** Properties of the spatial index (C04-C09).

    Coordinates are real numbers ([Fin] values of [ext R]); [le extR] is the
    usual order on them ([coordinate_order]).  [volR unit] is CalcRectVolume for a positive
    unit sphere volume (the code uses 3.141593). *)
From Coq Require Import List Arith NArith Bool Reals Lra Lia Permutation Floats.
Import ListNotations.
From Verif Require Import Res Scalar RTree RTreeSpec RTreeSplit RTreeProofs RTreeIter RTreeInst.
Local Open Scope nat_scope.

Notation leR := (le extR).
Notation goodR := (good extR finite).
Notation fineR := (fine finite).

Lemma coordinate_order a b : leR (Fin a) (Fin b) <-> (a <= b)%R.
Proof. exact (le_FF_iff a b). Qed.

(** ** Example data: twelve boxes along the diagonal, one of them removed. *)
Definition box (x y : R) : rect (ext R) := mkRect (Fin x) (Fin y) (Fin (x + 1)%R) (Fin (y + 2)%R).
Definition ex_ops : list (op (T := ext R) (D := nat)) :=
  map (fun i => OpInsert (box (INR i) (INR i)) i) (seq 0 12) ++ [OpRemove (box 3 3) 3; OpRemove (box 3 3) 77].
Lemma box_good x y : goodR (box x y).
Proof.
  split; [repeat split; eexists; reflexivity|].
  split; apply le_FF_iff; lra.
Qed.
Lemma ex_ops_good : Forall (op_good goodR fineR) ex_ops.
Proof.
  unfold ex_ops. apply Forall_app. split.
  - apply Forall_forall. intros o Ho. apply in_map_iff in Ho. destruct Ho as (i & <- & _). apply box_good.
  - repeat constructor; apply (box_good 3 3).
Qed.
Lemma nat_deq a b : Nat.eqb a b = true <-> a = b.
Proof. apply Nat.eqb_eq. Qed.

(** The same history executed with IEEE double arithmetic: two levels, split
    nodes, and the expected answers. *)
Definition volF : rect float -> float := spherical floatN 0.5%float 0x1.921fb8p+1%float PrimFloat.sqrt.
Definition boxF (x y : float) : rect float := mkRect x y (x + 1)%float (y + 2)%float.
Definition ex_opsF : list (op (T := float) (D := nat)) :=
  map (fun i => OpInsert (boxF (nofnat floatN i) (nofnat floatN i)) i) (seq 0 12) ++ [OpRemove (boxF 3 3) 3; OpRemove (boxF 3 3) 77].
Example ex_run :
  match run floatN Nat.eqb volF empty ex_opsF with
  | Ok root => fst root = 1 /\ length (snd root) = 2 /\
               search floatN (mkRect 1.5 1.5 4.5 4.5)%float root = Ok [1; 2; 4] /\
               count root = Ok 11 /\
               iterate 40 root = Ok (map snd (entries root))
  | _ => False
  end.
Proof. vm_compute. repeat split. Qed.

(** ** C04: search is exact *)
Theorem C04_search_exact : forall (D : Type) (deq : D -> D -> bool) (unit : R),
  (0 < unit)%R -> (forall a b, deq a b = true <-> a = b) ->
  forall ops, Forall (op_good goodR fineR) ops ->
  exists root B, run extR deq (volR unit) empty ops = Ok root /\ history leR ops B /\
    forall q, fineR q -> exists l, search extR q root = Ok l /\ selects leR q B l.
Proof.
  intros D deq unit Hu Hd ops Ho. destruct (run_R unit Hu deq Hd ops Ho) as (root & E & Hb & Hh).
  exists root, (entries root). split; auto. split; auto. intros q Hq. apply search_R; auto.
Qed.
Print Assumptions C04_search_exact.
Example C04_example : exists root B, run extR Nat.eqb (volR 3) empty ex_ops = Ok root /\ history leR ex_ops B /\
    forall q, fineR q -> exists l, search extR q root = Ok l /\ selects leR q B l.
Proof. apply C04_search_exact; [lra|apply nat_deq|apply ex_ops_good]. Qed.

(** Without a removal that misses, and with distinct data, the history fixes the
    stored entries: what [history] allows beyond that is only which of several
    entries with equal data is taken out. *)
Theorem C04_history_without_removals : forall (D : Type) (l : list (rect (ext R) * D)) B,
  history leR (map (fun e => OpInsert (fst e) (snd e)) l) B -> Permutation B l.
Proof.
  intros D l B H. remember (map (fun e => OpInsert (fst e) (snd e)) l) as ops eqn:E. revert l E.
  induction H as [|ops B r d H IH|ops B B' r r0 d H IH P|ops B r d H IH N|ops B H IH|ops B B' H IH P]; intros l E.
  - destruct l; [auto|discriminate].
  - destruct (exists_last (l := l)) as (l' & e & ->); [intros ->; destruct ops; discriminate|].
    rewrite map_app in E. apply app_inj_tail in E. destruct E as [E1 E2]. inversion E2; subst.
    rewrite <- (surjective_pairing e). rewrite (IH l' eq_refl). apply Permutation_cons_append.
  - destruct (exists_last (l := l)) as (l' & e & ->); [intros ->; destruct ops; discriminate|].
    rewrite map_app in E. apply app_inj_tail in E. destruct E as [_ E2]. discriminate.
  - destruct (exists_last (l := l)) as (l' & e & ->); [intros ->; destruct ops; discriminate|].
    rewrite map_app in E. apply app_inj_tail in E. destruct E as [_ E2]. discriminate.
  - destruct (exists_last (l := l)) as (l' & e & ->); [intros ->; destruct ops; discriminate|].
    rewrite map_app in E. apply app_inj_tail in E. destruct E as [_ E2]. discriminate.
  - rewrite <- P. apply IH. auto.
Qed.
Print Assumptions C04_history_without_removals.
Example C04_history_example : exists B, history leR [OpInsert (box 0 0) 5; OpInsert (box 1 1) 5] B /\ length B = 2.
Proof.
  exists [(box 1 1, 5); (box 0 0, 5)]. split; auto.
  apply (h_insert leR [OpInsert (box 0 0) 5]). apply (h_insert leR []). constructor.
Qed.

(** ** C05: balance and covers *)
Theorem C05_balanced : forall (D : Type) (deq : D -> D -> bool) (unit : R),
  (0 < unit)%R -> (forall a b, deq a b = true <-> a = b) ->
  forall ops, Forall (op_good goodR fineR) ops ->
  forall root, run extR deq (volR unit) empty ops = Ok root -> balanced leR goodR root.
Proof.
  intros D deq unit Hu Hd ops Ho root E. destruct (run_R unit Hu deq Hd ops Ho) as (root' & E' & Hb & _). congruence.
Qed.
Print Assumptions C05_balanced.
Example C05_example : exists root, run extR Nat.eqb (volR 3) empty ex_ops = Ok root /\ balanced leR goodR root.
Proof.
  destruct (run_R 3 ltac:(lra) Nat.eqb nat_deq ex_ops ex_ops_good) as (root & E & _). exists root. split; auto.
  eapply C05_balanced; [| | |exact E]; [lra|apply nat_deq|apply ex_ops_good].
Qed.

(** ** C06: removal *)
Theorem C06_remove_exact : forall (D : Type) (deq : D -> D -> bool) (unit : R),
  (0 < unit)%R -> (forall a b, deq a b = true <-> a = b) ->
  forall ops root, Forall (op_good goodR fineR) ops -> run extR deq (volR unit) empty ops = Ok root ->
  forall r d, fineR r ->
  exists root', remove extR deq (volR unit) r d root = Ok root' /\
    (* stored with this box: exactly one entry with these data goes *)
    (In (r, d) (entries root) -> exists r0, Permutation (entries root) ((r0, d) :: entries root')) /\
    (* and it is that one if the data are stored once *)
    (In (r, d) (entries root) -> NoDup (map snd (entries root)) -> Permutation (entries root) ((r, d) :: entries root')) /\
    (* not stored: nothing changes *)
    (~ In d (map snd (entries root)) -> root' = root).
Proof.
  intros D deq unit Hu Hd ops root Ho E r d Hr. destruct (run_R unit Hu deq Hd ops Ho) as (root1 & E' & Hb & _).
  assert (root1 = root) by congruence. subst root1.
  destruct (remove_R unit Hu deq Hd r d root Hr Hb) as (root' & Er & Hb' & Hor). exists root'. split; auto.
  assert (Hfound : In (r, d) (entries root) -> exists r0, Permutation (entries root) ((r0, d) :: entries root')).
  { intros Hin. destruct Hor as [H|[_ H]]; auto. exfalso. apply (H r Hin).
    apply touches_self. pose proof (entries_goodR root Hb) as Hg. rewrite Forall_forall in Hg. apply (Hg _ Hin). }
  split; auto. split.
  - intros Hin Hnd. destruct (Hfound Hin) as (r0 & Hp). 
    assert (In (r, d) ((r0, d) :: entries root')) as [Eq|Hin'] by (eapply Permutation_in; eauto).
    + inversion Eq; subst. auto.
    + exfalso. assert (Hnd' : NoDup (map snd ((r0, d) :: entries root'))) by (eapply Permutation_NoDup; [apply Permutation_map; exact Hp|auto]).
      inversion Hnd' as [|? ? Hni _]; subst. apply Hni. change d with (snd (r, d)). apply in_map. auto.
  - intros Hni. destruct Hor as [(r0 & Hp)|[H _]]; auto. exfalso. apply Hni.
    change d with (snd (r0, d)). apply in_map. eapply Permutation_in; [symmetry; exact Hp|]. simpl; auto.
Qed.
Print Assumptions C06_remove_exact.
Example C06_example : exists root root', run extR Nat.eqb (volR 3) empty (firstn 12 ex_ops) = Ok root /\
  remove extR Nat.eqb (volR 3) (box (INR 3) (INR 3)) 3 root = Ok root' /\
  Permutation (entries root) ((box (INR 3) (INR 3), 3) :: entries root').
Proof.
  assert (Hg : Forall (op_good goodR fineR) (firstn 12 ex_ops)).
  { apply Forall_forall. intros o Ho. pose proof ex_ops_good as H. rewrite Forall_forall in H. apply H.
    rewrite <- (firstn_skipn 12 ex_ops). apply in_app_iff. auto. }
  destruct (run_R 3 ltac:(lra) Nat.eqb nat_deq _ Hg) as (root & E & Hb & Hh).
  assert (Hp : Permutation (entries root) (map (fun i => (box (INR i) (INR i), i)) (seq 0 12))).
  { apply C04_history_without_removals. exact Hh. }
  destruct (C06_remove_exact nat Nat.eqb 3 ltac:(lra) nat_deq _ root Hg E (box (INR 3) (INR 3)) 3) as (root' & Er & _ & H & _).
  { apply box_good. }
  exists root, root'. split; auto. split; auto. apply H.
  - eapply Permutation_in; [symmetry; exact Hp|].
    exact (in_map (fun i => (box (INR i) (INR i), i)) (seq 0 12) 3 ltac:(apply in_seq; lia)).
  - eapply Permutation_NoDup; [apply Permutation_map; symmetry; exact Hp|]. rewrite map_map. cbn [snd]. rewrite map_id. apply seq_NoDup.
Qed.

(** ** C07: splitting *)
(** In exact arithmetic. *)
Theorem C07_split_defined : forall (D : Type) (unit : R), (0 < unit)%R ->
  forall (bs : list (branch (ext R) D)) b, length bs = 8 -> Forall (fun b => goodR (fst b)) (b :: bs) ->
  exists x y, split_node extR (volR unit) bs b = Ok (x, y) /\ Permutation (x ++ y) (bs ++ [b]) /\
     4 <= length x /\ 4 <= length y.
Proof.
  intros D unit Hu bs b Hl Hg. rewrite Forall_forall in Hg.
  pose proof (split_spec extR (volR unit) finite lt_asymR le_transR (diff_okR unit) (seed_okR unit Hu) bs b) as Hw.
  specialize (Hw (fun x Hx => Hg x (or_intror Hx)) (Hg b (or_introl eq_refl)) Hl).
  destruct (split_node _ _ _ _) as [[x y]| |]; cbn [wp fst snd] in Hw; [exists x, y; split; auto; split; [tauto|lia]|contradiction|contradiction].
Qed.
Print Assumptions C07_split_defined.
Example C07_example : exists x y, split_node extR (volR 3) (map (fun i => (box (INR i) 0, Data i)) (seq 0 8)) (box 3 3, Data 8) = Ok (x, y) /\
  Permutation (x ++ y) (map (fun i => (box (INR i) 0, Data i)) (seq 0 8) ++ [(box 3 3, Data 8)]) /\ 4 <= length x /\ 4 <= length y.
Proof.
  apply C07_split_defined; [lra|reflexivity|]. constructor; [apply box_good|].
  apply Forall_forall. intros o Ho. apply in_map_iff in Ho. destruct Ho as (i & <- & _). apply box_good.
Qed.

(** In double arithmetic it fails: nine equal boxes of side 10^9.  The waste of
    every pair is -area and the starting value -area - 1 rounds to -area, so no
    pair is selected and the seeds are read uninitialised. *)
Definition huge : rect float := (mkRect 0 0 1000000000 1000000000)%float.
Theorem C07_split_defined_refuted :
  run floatN Nat.eqb volF empty (map (fun i => OpInsert huge i) (seq 0 8)) <> UB /\
  run floatN Nat.eqb volF empty (map (fun i => OpInsert huge i) (seq 0 9)) = UB.
Proof. split; [vm_compute; discriminate|vm_compute; reflexivity]. Qed.
Print Assumptions C07_split_defined_refuted.

(** ** C08: iteration *)
Theorem C08_iterate_all : forall (D : Type) (deq : D -> D -> bool) (unit : R),
  (0 < unit)%R -> (forall a b, deq a b = true <-> a = b) ->
  forall ops root, Forall (op_good goodR fineR) ops -> run extR deq (volR unit) empty ops = Ok root ->
  (N.of_nat (length (entries root)) < 2 ^ 65)%N ->
  fst root < 32 /\
  forall fuel, length (entries root) + fst root + 2 <= fuel ->
    iterate fuel root = Ok (map snd (entries root)) /\ count root = Ok (length (entries root)).
Proof.
  intros D deq unit Hu Hd ops root Ho E Hc. pose proof (C05_balanced D deq unit Hu Hd ops Ho root E) as Hb.
  pose proof (height leR goodR root Hb Hc) as Hh. split; auto. intros fuel Hf. split.
  - apply (iterate_spec leR goodR fuel root Hb); auto; lia.
  - apply (count_spec extR finite root Hb).
Qed.
Print Assumptions C08_iterate_all.
Example C08_example : exists root, run extR Nat.eqb (volR 3) empty (firstn 12 ex_ops) = Ok root /\
  iterate 100 root = Ok (map snd (entries root)) /\ Permutation (map snd (entries root)) (seq 0 12).
Proof.
  assert (Hg : Forall (op_good goodR fineR) (firstn 12 ex_ops)).
  { apply Forall_forall. intros o Ho. pose proof ex_ops_good as H. rewrite Forall_forall in H. apply H.
    rewrite <- (firstn_skipn 12 ex_ops). apply in_app_iff. auto. }
  destruct (run_R 3 ltac:(lra) Nat.eqb nat_deq _ Hg) as (root & E & Hb & Hh).
  assert (Hp : Permutation (entries root) (map (fun i => (box (INR i) (INR i), i)) (seq 0 12))).
  { apply C04_history_without_removals. exact Hh. }
  assert (Hl : length (entries root) = 12) by (apply Permutation_length in Hp; rewrite map_length in Hp; exact Hp).
  exists root. split; auto.
  destruct (C08_iterate_all nat Nat.eqb 3 ltac:(lra) nat_deq _ root Hg E) as [Hlv Hi]; [rewrite Hl; reflexivity|].
  split; [apply Hi; lia|]. rewrite Hp, map_map. cbn [snd]. rewrite map_id. reflexivity.
Qed.

(** ** C09: saving and loading *)
Theorem C09_save_load : forall (D : Type) (deq : D -> D -> bool) (unit : R),
  (0 < unit)%R -> (forall a b, deq a b = true <-> a = b) ->
  forall ops root, Forall (op_good goodR fineR) ops -> run extR deq (volR unit) empty ops = Ok root ->
  forall file_id fuel, fst root < fuel ->
  exists ts, save file_id root = Ok ts /\ load file_id fuel ts = Ok (Some root).
Proof.
  intros D deq unit Hu Hd ops root Ho E file_id fuel Hf. pose proof (C05_balanced D deq unit Hu Hd ops Ho root E) as Hb.
  apply (save_load_spec leR goodR file_id fuel root Hb Hf).
Qed.
Print Assumptions C09_save_load.
Example C09_example :
  match run floatN Nat.eqb volF empty ex_opsF with
  | Ok root => match save 5 root with
               | Ok ts => length ts = 50 /\ load 5 20 ts = Ok (Some root) /\ load 6 20 ts = Ok None
               | _ => False
               end
  | _ => False
  end.
Proof. vm_compute. repeat split. Qed.
