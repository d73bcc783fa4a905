(** Properties of the spatial index over IEEE doubles (C04-C09).

    Coordinates are doubles of absolute value at most 2^25 (degrees of latitude
    and longitude, or metres up to 33 thousand kilometres); every operation of
    the volume rounds. *)
From Coq Require Import List Arith NArith Bool Reals Lra Lia Permutation Floats.
Import ListNotations.
From Verif Require Import Res Scalar RTree RTreeSpec RTreeSplit RTreeProofs RTreeIter RTreeInst PropsRTree FloatBase RTreeFloat.
Local Open Scope nat_scope.

Notation leF := (le floatN).
Notation goodF := (good floatN bounded).
Notation fineF := (fine bounded).

(** The order used below is that of the real values. *)
Lemma coordinate_order_double x y : bounded x -> bounded y -> leF x y <-> (val x <= val y)%R.
Proof. exact (le_bounded x y). Qed.

Lemma ex_opsF_good : Forall (op_good goodF fineF) ex_opsF.
Proof. unfold ex_opsF. vm_compute. repeat constructor. Qed.

Theorem C04_search_exact_double : forall (D : Type) (deq : D -> D -> bool),
  (forall a b, deq a b = true <-> a = b) ->
  forall ops, Forall (op_good goodF fineF) ops ->
  exists root B, run floatN deq volF empty ops = Ok root /\ history leF ops B /\
    forall q, fineF q -> exists l, search floatN q root = Ok l /\ selects leF q B l.
Proof.
  intros D deq Hd ops Ho. destruct (run_F deq Hd ops Ho) as (root & E & Hb & Hh).
  exists root, (entries root). split; auto. split; auto. intros q Hq. apply search_F; auto.
Qed.
Print Assumptions C04_search_exact_double.
Example C04_double_example : exists root B, run floatN Nat.eqb volF empty ex_opsF = Ok root /\ history leF ex_opsF B /\
    forall q, fineF q -> exists l, search floatN q root = Ok l /\ selects leF q B l.
Proof. apply C04_search_exact_double; [apply nat_deq|apply ex_opsF_good]. Qed.

Theorem C05_balanced_double : forall (D : Type) (deq : D -> D -> bool),
  (forall a b, deq a b = true <-> a = b) ->
  forall ops, Forall (op_good goodF fineF) ops ->
  forall root, run floatN deq volF empty ops = Ok root -> balanced leF goodF root.
Proof.
  intros D deq Hd ops Ho root E. destruct (run_F deq Hd ops Ho) as (root' & E' & Hb & _). congruence.
Qed.
Print Assumptions C05_balanced_double.
Example C05_double_example : exists root, run floatN Nat.eqb volF empty ex_opsF = Ok root /\ fst root = 1 /\ balanced leF goodF root.
Proof.
  destruct (run_F Nat.eqb nat_deq ex_opsF ex_opsF_good) as (root & E & H & _). exists root. split; auto. split; auto.
  assert (K : match run floatN Nat.eqb volF empty ex_opsF with Ok root => fst root = 1 | _ => False end) by (vm_compute; reflexivity).
  rewrite E in K. exact K.
Qed.

Theorem C06_remove_exact_double : forall (D : Type) (deq : D -> D -> bool),
  (forall a b, deq a b = true <-> a = b) ->
  forall ops root, Forall (op_good goodF fineF) ops -> run floatN deq volF empty ops = Ok root ->
  forall r d, fineF r ->
  exists root', remove floatN deq volF r d root = Ok root' /\
    (In (r, d) (entries root) -> exists r0, Permutation (entries root) ((r0, d) :: entries root')) /\
    (In (r, d) (entries root) -> NoDup (map snd (entries root)) -> Permutation (entries root) ((r, d) :: entries root')) /\
    (~ In d (map snd (entries root)) -> root' = root).
Proof.
  intros D deq Hd ops root Ho E r d Hr. destruct (run_F deq Hd ops Ho) as (root1 & E' & Hb & _).
  assert (root1 = root) by congruence. subst root1.
  destruct (remove_F deq Hd r d root Hr Hb) as (root' & Er & Hb' & Hor). exists root'. split; auto.
  assert (Hfound : In (r, d) (entries root) -> exists r0, Permutation (entries root) ((r0, d) :: entries root')).
  { intros Hin. destruct Hor as [H|[_ H]]; auto. exfalso. apply (H r Hin).
    pose proof (entries_goodF root Hb) as Hg. rewrite Forall_forall in Hg. destruct (Hg _ Hin) as (_ & H1 & H2). repeat split; auto. }
  split; auto. split.
  - intros Hin Hnd. destruct (Hfound Hin) as (r0 & Hp).
    assert (In (r, d) ((r0, d) :: entries root')) as [Eq|Hin'] by (eapply Permutation_in; eauto).
    + inversion Eq; subst. auto.
    + exfalso. assert (Hnd' : NoDup (map snd ((r0, d) :: entries root'))) by (eapply Permutation_NoDup; [apply Permutation_map; exact Hp|auto]).
      inversion Hnd' as [|? ? Hni _]; subst. apply Hni. change d with (snd (r, d)). apply in_map. auto.
  - intros Hni. destruct Hor as [(r0 & Hp)|[H _]]; auto. exfalso. apply Hni.
    change d with (snd (r0, d)). apply in_map. eapply Permutation_in; [symmetry; exact Hp|]. simpl; auto.
Qed.
Print Assumptions C06_remove_exact_double.
Example C06_double_example : exists root root', run floatN Nat.eqb volF empty (firstn 12 ex_opsF) = Ok root /\
  remove floatN Nat.eqb volF (boxF 3 3) 3 root = Ok root' /\ In (boxF 3 3, 3) (entries root) /\ NoDup (map snd (entries root)) /\
  Permutation (entries root) ((boxF 3 3, 3) :: entries root').
Proof.
  assert (Hg : Forall (op_good goodF fineF) (firstn 12 ex_opsF)).
  { apply Forall_forall. intros o Ho. pose proof ex_opsF_good as H. rewrite Forall_forall in H. apply H.
    rewrite <- (firstn_skipn 12 ex_opsF). apply in_app_iff. auto. }
  destruct (run floatN Nat.eqb volF empty (firstn 12 ex_opsF)) as [root| |] eqn:E;
    [|exfalso; revert E; vm_compute; discriminate|exfalso; revert E; vm_compute; discriminate].
  destruct (C06_remove_exact_double nat Nat.eqb nat_deq _ root Hg E (boxF 3 3) 3) as (root' & Er & _ & H & _); [repeat split; reflexivity|].
  assert (K : In (boxF 3 3, 3) (entries root) /\ NoDup (map snd (entries root))).
  { vm_compute in E. inversion E. subst root. split; vm_compute; [tauto|]. repeat constructor; simpl; lia. }
  exists root, root'. split; auto. split; auto. split; [apply K|]. split; [apply K|]. apply H; apply K.
Qed.

(** The claim for all doubles is refuted by C07_split_defined_refuted (boxes of
    side 10^9); with coordinates up to 2^25 no split reads unset seeds. *)
Theorem C07_split_defined_double_partial : forall (D : Type) (bs : list (branch float D)) b,
  length bs = 8 -> Forall (fun b => goodF (fst b)) (b :: bs) ->
  exists x y, split_node floatN volF bs b = Ok (x, y) /\ Permutation (x ++ y) (bs ++ [b]) /\
     4 <= length x /\ 4 <= length y.
Proof. intros D bs b. exact (split_F bs b). Qed.
Print Assumptions C07_split_defined_double_partial.
Example C07_double_example : exists x y, split_node floatN volF (repeat ((mkRect 0 0 33554432 33554432)%float, Data 1) 8) ((mkRect 0 0 33554432 33554432)%float, Data 2) = Ok (x, y) /\
  Permutation (x ++ y) (repeat ((mkRect 0 0 33554432 33554432)%float, Data 1) 8 ++ [((mkRect 0 0 33554432 33554432)%float, Data 2)]) /\ 4 <= length x /\ 4 <= length y.
Proof. apply C07_split_defined_double_partial; [reflexivity|repeat constructor]. Qed.

Theorem C08_iterate_all_double : forall (D : Type) (deq : D -> D -> bool),
  (forall a b, deq a b = true <-> a = b) ->
  forall ops root, Forall (op_good goodF fineF) ops -> run floatN deq volF empty ops = Ok root ->
  (N.of_nat (length (entries root)) < 2 ^ 65)%N ->
  fst root < 32 /\
  forall fuel, length (entries root) + fst root + 2 <= fuel ->
    iterate fuel root = Ok (map snd (entries root)) /\ count root = Ok (length (entries root)).
Proof.
  intros D deq Hd ops root Ho E Hc. pose proof (C05_balanced_double D deq Hd ops Ho root E) as Hb.
  pose proof (height leF goodF root Hb Hc) as Hh. split; auto. intros fuel Hf. split.
  - apply (iterate_spec leF goodF fuel root Hb); auto; lia.
  - apply (count_spec floatN bounded root Hb).
Qed.
Print Assumptions C08_iterate_all_double.
Example C08_double_example : exists root, run floatN Nat.eqb volF empty ex_opsF = Ok root /\
  (N.of_nat (length (entries root)) < 2 ^ 65)%N /\ iterate 40 root = Ok (map snd (entries root)) /\ count root = Ok (length (entries root)).
Proof.
  destruct (run floatN Nat.eqb volF empty ex_opsF) as [root| |] eqn:E;
    [|exfalso; revert E; vm_compute; discriminate|exfalso; revert E; vm_compute; discriminate].
  exists root. split; auto.
  assert (K : length (entries root) = 11 /\ fst root = 1) by (vm_compute in E; inversion E; vm_compute; auto). destruct K as [K1 K2].
  assert (L : (N.of_nat (length (entries root)) < 2 ^ 65)%N) by (rewrite K1; reflexivity).
  split; auto. apply (C08_iterate_all_double nat Nat.eqb nat_deq ex_opsF root ex_opsF_good E L). lia.
Qed.

Theorem C09_save_load_double : forall (D : Type) (deq : D -> D -> bool),
  (forall a b, deq a b = true <-> a = b) ->
  forall ops root, Forall (op_good goodF fineF) ops -> run floatN deq volF empty ops = Ok root ->
  forall file_id fuel, fst root < fuel ->
  exists ts, save file_id root = Ok ts /\ load file_id fuel ts = Ok (Some root).
Proof.
  intros D deq Hd ops root Ho E file_id fuel Hf. pose proof (C05_balanced_double D deq Hd ops Ho root E) as Hb.
  apply (save_load_spec leF goodF file_id fuel root Hb Hf).
Qed.
Print Assumptions C09_save_load_double.
Example C09_double_example : exists root ts, run floatN Nat.eqb volF empty ex_opsF = Ok root /\ save 5 root = Ok ts /\ load 5 20 ts = Ok (Some root).
Proof.
  destruct (run floatN Nat.eqb volF empty ex_opsF) as [root| |] eqn:E;
    [|exfalso; revert E; vm_compute; discriminate|exfalso; revert E; vm_compute; discriminate].
  assert (K : fst root = 1) by (vm_compute in E; inversion E; vm_compute; auto).
  destruct (C09_save_load_double nat Nat.eqb nat_deq ex_opsF root ex_opsF_good E 5 20) as (ts & S & L); [lia|]. exists root, ts. auto.
Qed.
