(** The position PHD: bound and value. *)
From Coq Require Import List Arith ZArith Bool Reals Lra Lia.
Import ListNotations.
From Verif Require Import Res Scalar LapBase RTree CC Cluster Tracker TrackerSpec TrackerProofs TrackerCluster TrackerMain TrackerHist TrackerOps Metric Eval EvalSpec.
Local Open Scope nat_scope.
Local Notation upd := Res.upd.

(** ** Loops that end normally *)
Lemma for_loop_inv {S} (body : nat -> S -> res S) (I : nat -> S -> Prop) n : forall a s s',
  for_loop n a body s = Ok s' -> I a s -> (forall i x x', I i x -> body i x = Ok x' -> I (Datatypes.S i) x') -> I (a + n) s'.
Proof.
  induction n as [|n IH]; intros a s s' E H0 Hs; cbn [for_loop] in E.
  - inversion E; subst. rewrite Nat.add_0_r. auto.
  - apply bind_ok in E. destruct E as (s1 & E1 & E2). replace (a + Datatypes.S n) with (Datatypes.S a + n) by lia. eauto.
Qed.

Lemma for_loop_ok {S} (body : nat -> S -> res S) (I : nat -> S -> Prop) n : forall a s,
  I a s -> (forall i x, a <= i < a + n -> I i x -> exists x', body i x = Ok x' /\ I (Datatypes.S i) x') ->
  exists s', for_loop n a body s = Ok s' /\ I (a + n) s'.
Proof.
  induction n as [|n IH]; intros a s H0 Hs; cbn [for_loop].
  - exists s. rewrite Nat.add_0_r. auto.
  - destruct (Hs a s ltac:(lia) H0) as (s1 & E1 & H1). rewrite E1. cbn [bind].
    destruct (IH (Datatypes.S a) s1 H1) as (s' & E & H'); [intros; apply Hs; auto; lia|]. exists s'. split; auto.
    replace (a + Datatypes.S n) with (Datatypes.S a + n) by lia. auto.
Qed.

(** ** Sums of updated lists *)
Lemma Rsum_upd l k x : k < length l -> Rsum (upd l k x) = (Rsum l - nth k l 0 + x)%R.
Proof.
  revert k. induction l as [|y l IH]; intros k Hk; [simpl in Hk; lia|]. destruct k as [|k].
  - unfold Rsum. cbn [upd fold_right nth]. ring.
  - cbn [upd nth]. change (Rsum (y :: upd l k x)) with (y + Rsum (upd l k x))%R. change (Rsum (y :: l)) with (y + Rsum l)%R.
    rewrite IH by (simpl in Hk; lia). ring.
Qed.
Lemma upd_map {A B} (f : A -> B) l k x : upd (map f l) k (f x) = map f (upd l k x).
Proof. revert k. induction l as [|y l IH]; intros [|k]; simpl; auto. f_equal. auto. Qed.
Lemma fin_repeat n : map (@Fin R) (repeat 0%R n) = repeat (Fin 0%R) n.
Proof. induction n; simpl; congruence. Qed.
Lemma Rsum_repeat0 n : Rsum (repeat 0%R n) = 0%R.
Proof. induction n; unfold Rsum in *; simpl; auto. rewrite IHn. ring. Qed.
Lemma get_map {A B} (f : A -> B) l k : get (map f l) k = match get l k with Ok x => Ok (f x) | UB => UB | OutOfFuel => OutOfFuel end.
Proof. unfold get. rewrite nth_error_map. destruct (nth_error l k); auto. Qed.

Section Proofs.
Context {P Rep : Type}.
Variable local : point -> P -> P.
Variable global : P -> P.
Notation target := (target (P := P)).
Notation tracker := (tracker (P := P)).
Notation reframe := (reframe local global).
Notation phd_target := (phd_target local global).
Notation pos_phd := (pos_phd local global).

(** One sample adds [r] to at most one entry. *)
Lemma add_sample_inv nx ny corner grid r s xs m' :
  add_sample nx ny corner grid (Fin r) s (map Fin xs) = Ok m' ->
  exists xs', m' = map Fin xs' /\ (xs' = xs \/ exists k, k < length xs /\ xs' = upd xs k (nth k xs 0 + r)%R).
Proof.
  unfold add_sample. intros E. apply bind_ok in E. destruct E as ((x, y) & _ & E).
  destruct (Z.ltb x (Z.of_nat nx) && Z.ltb y (Z.of_nat ny) && Z.leb 0 x && Z.leb 0 y)%bool; [|inversion E; subst; eauto].
  set (k := Z.to_nat x * ny + Z.to_nat y) in *. apply bind_ok in E. destruct E as (v & Ev & E).
  rewrite get_map in Ev. destruct (get xs k) as [w| |] eqn:Ew; try discriminate. inversion Ev; subst v.
  destruct (get_inv xs k w 0%R Ew) as (Hk & Ew'). rewrite <- Ew' in *. rewrite add_FF in E. unfold set in E. rewrite map_length in E.
  destruct (Nat.ltb_spec k (length xs)); [|lia]. inversion E; subst. rewrite upd_map. eexists. split; [reflexivity|]. right. eauto.
Qed.

Definition nonneg_list (xs : list R) : Prop := forall x, In x xs -> (0 <= x)%R.
Lemma in_upd {A} (l : list A) k x y : In y (upd l k x) -> y = x \/ In y l.
Proof. revert k. induction l as [|z l IH]; intros [|k] H; simpl in *; auto; destruct H as [->|H]; auto. destruct (IH k H); auto. Qed.

Lemma target_samples nx ny corner grid r f xs m' : (0 <= r)%R -> nonneg_list xs ->
  for_loop 1000 0 (fun i m => add_sample nx ny corner grid (Fin r) (f i) m) (map Fin xs) = Ok m' ->
  exists xs', m' = map Fin xs' /\ length xs' = length xs /\ nonneg_list xs' /\ (Rsum xs' <= Rsum xs + 1000 * r)%R.
Proof.
  intros Hr Hx E.
  apply (for_loop_inv _ (fun i m => exists xs', m = map Fin xs' /\ length xs' = length xs /\ nonneg_list xs' /\
    (Rsum xs' <= Rsum xs + INR i * r)%R)) in E.
  - destruct E as (xs' & -> & El & Hn & Hs). exists xs'. split; auto. split; auto. split; auto. eapply Rle_trans; [exact Hs|].
    apply Req_le. do 2 f_equal. rewrite INR_IZR_INZ. reflexivity.
  - exists xs. split; auto. split; auto. split; auto. simpl. lra.
  - intros i m m1 (ys & -> & El & Hn & Hs) E1. apply add_sample_inv in E1.
    destruct E1 as (zs & -> & [->|(k & Hk & ->)]).
    + exists ys. split; auto. split; auto. split; auto. rewrite S_INR. lra.
    + exists (upd ys k (nth k ys 0 + r)%R). split; auto. rewrite upd_length. split; auto. split.
      * intros y Hy. apply in_upd in Hy. destruct Hy as [->|Hy]; auto.
        assert (0 <= nth k ys 0)%R by (apply Hn, nth_In; auto). lra.
      * rewrite Rsum_upd, S_INR by auto. lra.
Qed.

Lemma phd_sum nx ny corner grid samples o : forall (sel : list (addr * target)) n rs (st st' : tracker) xs m',
  NoDup (map fst sel) -> (forall x, In x sel -> heap st (fst x) = Some (snd x)) ->
  map (fun x => tg_r (snd x)) sel = map Fin rs -> nonneg_list rs -> nonneg_list xs ->
  for_each (phd_target nx ny corner grid samples o) (combine (seq n (length sel)) (map fst sel)) (map Fin xs, st) = Ok (m', st') ->
  exists xs', m' = map Fin xs' /\ length xs' = length xs /\ nonneg_list xs' /\ (Rsum xs' <= Rsum xs + 1000 * Rsum rs)%R.
Proof.
  induction sel as [|(a, t) sel IH]; intros n rs st st' xs m' Hn Hh Er Hr Hx E.
  - destruct rs; [|discriminate]. cbn in E. inversion E; subst. exists xs. split; auto. split; auto. split; auto. unfold Rsum. simpl. lra.
  - destruct rs as [|r rs]; [discriminate|]. cbn [map snd] in Er. inversion Er as [[E1 E2]].
    cbn [length map fst seq combine for_each] in E. apply bind_ok in E. destruct E as ((m1, st1) & Et & E).
    unfold Eval.phd_target at 1 in Et. cbn [snd fst] in Et. unfold deref at 1 in Et.
    rewrite (Hh (a, t) ltac:(simpl; auto) : heap st a = Some t) in Et. cbn [bind] in Et.
    apply bind_ok in Et. destruct Et as (st2 & Ew & Et). apply bind_ok in Et. destruct Et as (m2 & Em & Et). inversion Et; subst m2 st2.
    rewrite E1 in Em. assert (Hr0 : (0 <= r)%R) by (apply Hr; simpl; auto).
    destruct (target_samples _ _ _ _ _ _ _ _ Hr0 Hx Em) as (ys & -> & El & Hy & Hs).
    cbn [map fst] in Hn. inversion Hn as [|? ? Hna Hnd]; subst.
    destruct (IH (S n) rs st1 st' ys m' Hnd) as (zs & Ez & Elz & Hz & Hsz); auto.
    + intros (b, u) Hb. unfold write in Ew. apply bind_ok in Ew. destruct Ew as (t0 & _ & Ew). inversion Ew; subst. cbn [heap fst snd].
      unfold heap_upd. destruct (Nat.eqb_spec b a) as [->|]; [|apply (Hh (b, u)); simpl; auto].
      exfalso. apply Hna. apply (in_map fst) in Hb. exact Hb.
    + intros y Hin. apply Hr. simpl. auto.
    + exists zs. split; auto. split; [congruence|]. split; auto. unfold Rsum in *. cbn [fold_right]. lra.
Qed.

(** ** The value *)
Lemma int_part_eq q z : (IZR z <= q < IZR z + 1)%R -> Int_part q = z.
Proof.
  intros (H1 & H2). destruct (base_Int_part q) as (H3 & H4).
  assert (Int_part q < z + 1)%Z by (apply lt_IZR; rewrite plus_IZR; lra).
  assert (z < Int_part q + 1)%Z by (apply lt_IZR; rewrite plus_IZR; lra). lia.
Qed.

Lemma part_cell lo hi n x : (lo < hi)%R -> 0 < n -> near lo hi n x ->
  exists z, floor_int (xdiv (nsub extR (Fin x) (Fin lo)) (xdiv (nsub extR (Fin hi) (Fin lo)) (Fin (INR n)))) = Ok z /\
    forall i, in_part lo hi n i x = Z.eqb z (Z.of_nat i).
Proof.
  intros Hlt Hn Hnear. assert (Hn' : (0 < INR n)%R) by (apply lt_0_INR; auto). unfold near in Hnear.
  rewrite !sub_FF. unfold xdiv, ediv. destruct (Reqb_spec (INR n) 0); [lra|].
  set (g := ((hi - lo) / INR n)%R) in *. assert (Hg : (0 < g)%R) by (apply Rdiv_lt_0_compat; lra).
  destruct (Reqb_spec g 0); [lra|]. cbn [floor_int]. set (q := ((x - lo) / g)%R). destruct (base_Int_part q) as (H1 & H2).
  assert (Hq : (x - lo = q * g)%R) by (unfold q; field; lra). rewrite Hq, Rabs_mult, (Rabs_pos_eq g) in Hnear by lra.
  apply Rmult_le_reg_r in Hnear; [|auto]. pose proof (Rle_abs q). pose proof (Rle_abs (- q)) as Hq2. rewrite Rabs_Ropp in Hq2.
  assert (B1 : (-2147483648 < Int_part q)%Z) by (apply lt_IZR; lra).
  assert (B2 : (Int_part q <= 2147483647)%Z) by (apply le_IZR; lra).
  exists (Int_part q). split.
  { replace (Z.leb (-2147483648) (Int_part q)) with true by (symmetry; apply Z.leb_le; lia).
    replace (Z.leb (Int_part q) 2147483647) with true by (symmetry; apply Z.leb_le; lia). reflexivity. }
  intros i. unfold in_part. fold g. destruct (Z.eqb_spec (Int_part q) (Z.of_nat i)) as [E|E].
  - rewrite INR_IZR_INZ, <- E. destruct (Rle_dec _ _) as [_|Hc]; [|exfalso; apply Hc].
    + destruct (Rlt_dec _ _) as [_|Hc]; [reflexivity|exfalso; apply Hc].
      assert (Hm : (q * g < (IZR (Int_part q) + 1) * g)%R) by (apply Rmult_lt_compat_r; lra). lra.
    + assert (Hm : (IZR (Int_part q) * g <= q * g)%R) by (apply Rmult_le_compat_r; lra). lra.
  - destruct (Rle_dec (lo + INR i * g) x) as [Ha|]; auto. destruct (Rlt_dec x (lo + (INR i + 1) * g)) as [Hb|]; auto.
    exfalso. apply E, int_part_eq. rewrite <- INR_IZR_INZ. split; [apply Rmult_le_reg_r with g|apply Rmult_lt_reg_r with g]; lra.
Qed.

Section Value.
Variables x0 x1 y0 y1 : R.
Variables nx ny : nat.
Hypothesis Hx : (x0 < x1)%R.
Hypothesis Hy : (y0 < y1)%R.
Hypothesis Hnx : 0 < nx.
Hypothesis Hny : 0 < ny.
Notation corner := (Fin x0, Fin y0).
Notation grid := (xdiv (nsub extR (Fin x1) (Fin x0)) (Fin (INR nx)), xdiv (nsub extR (Fin y1) (Fin y0)) (Fin (INR ny))).
Definition near2 (s : R * R) : Prop := near x0 x1 nx (fst s) /\ near y0 y1 ny (snd s).
Definition fins (s : R * R) : ext R * ext R := (Fin (fst s), Fin (snd s)).
Definition in_cell (i j : nat) (s : R * R) : bool := in_part x0 x1 nx i (fst s) && in_part y0 y1 ny j (snd s).

Lemma add_sample_value r s xs : near2 s -> length xs = nx * ny ->
  exists xs', add_sample nx ny corner grid (Fin r) (fins s) (map Fin xs) = Ok (map Fin xs') /\ length xs' = nx * ny /\
    forall i j, i < nx -> j < ny -> nth (i * ny + j) xs' 0%R = (nth (i * ny + j) xs 0 + if in_cell i j s then r else 0)%R.
Proof.
  intros (H1 & H2) Hl. destruct (part_cell x0 x1 nx (fst s) Hx Hnx H1) as (zx & Ex & Hzx).
  destruct (part_cell y0 y1 ny (snd s) Hy Hny H2) as (zy & Ey & Hzy).
  unfold add_sample, cell, fins. cbn [fst snd]. rewrite Ex. cbn [bind]. rewrite Ey. cbn [bind].
  destruct (Z.ltb zx (Z.of_nat nx) && Z.ltb zy (Z.of_nat ny) && Z.leb 0 zx && Z.leb 0 zy)%bool eqn:Eb.
  - rewrite !andb_true_iff, !Z.ltb_lt, !Z.leb_le in Eb. destruct Eb as (((B1 & B2) & B3) & B4).
    set (a := Z.to_nat zx). set (b := Z.to_nat zy). assert (Ha : a < nx) by lia. assert (Hb : b < ny) by lia.
    assert (Hk : a * ny + b < length xs) by (rewrite Hl; nia).
    rewrite get_map, (get_ok xs _ 0%R Hk). cbn [bind]. rewrite add_FF, set_ok by (rewrite map_length; auto). rewrite upd_map.
    eexists. split; [reflexivity|]. rewrite upd_length. split; auto. intros i j Hi Hj. unfold in_cell. rewrite Hzx, Hzy.
    destruct (Z.eqb_spec zx (Z.of_nat i)) as [Ei|Ei], (Z.eqb_spec zy (Z.of_nat j)) as [Ej|Ej]; cbn [andb].
    + assert (i = a) by lia. assert (j = b) by lia. subst i j. rewrite nth_upd_eq by auto. reflexivity.
    + rewrite nth_upd_neq, Rplus_0_r; auto. intros E. assert (b <> j) by lia. assert (i = a) by lia. subst i. lia.
    + rewrite nth_upd_neq, Rplus_0_r; auto. intros E. assert (a <> i) by lia. assert (i = a) by nia. lia.
    + rewrite nth_upd_neq, Rplus_0_r; auto. intros E. assert (a <> i) by lia. assert (i = a) by nia. lia.
  - exists xs. split; auto. split; auto. intros i j Hi Hj. unfold in_cell. rewrite Hzx, Hzy.
    destruct (Z.eqb_spec zx (Z.of_nat i)) as [->|]; [|cbn [andb]; ring].
    destruct (Z.eqb_spec zy (Z.of_nat j)) as [->|]; [|cbn [andb]; ring].
    exfalso. apply not_true_iff_false in Eb. apply Eb. rewrite !andb_true_iff, !Z.ltb_lt, !Z.leb_le. lia.
Qed.

Lemma samples_value n r f xs : (forall i, i < n -> near2 (f i)) -> length xs = nx * ny ->
  exists xs', for_loop n 0 (fun i m => add_sample nx ny corner grid (Fin r) (fins (f i)) m) (map Fin xs) = Ok (map Fin xs') /\
    length xs' = nx * ny /\
    forall i j, i < nx -> j < ny -> nth (i * ny + j) xs' 0%R = (nth (i * ny + j) xs 0 + r * INR (hits x0 x1 y0 y1 nx ny i j n f))%R.
Proof.
  intros Hf Hl.
  destruct (for_loop_ok (fun i m => add_sample nx ny corner grid (Fin r) (fins (f i)) m)
    (fun k m => exists xs', m = map Fin xs' /\ length xs' = nx * ny /\ forall i j, i < nx -> j < ny ->
       nth (i * ny + j) xs' 0%R = (nth (i * ny + j) xs 0 + r * INR (hits x0 x1 y0 y1 nx ny i j k f))%R) n 0 (map Fin xs)) as (m & E & xs' & -> & H1 & H2).
  - exists xs. split; auto. split; auto. intros. unfold hits. simpl. ring.
  - intros k m (_ & Hk) (ys & -> & L & H). destruct (add_sample_value r (f k) ys (Hf k Hk) L) as (zs & Ez & Lz & Hz).
    rewrite Ez. eexists. split; [reflexivity|]. exists zs. split; auto. split; auto. intros i j Hi Hj. rewrite Hz, H by auto.
    unfold hits. rewrite seq_S, filter_app, app_length, plus_INR. cbn [Nat.add filter]. fold (in_cell i j (f k)).
    destruct (in_cell i j (f k)); simpl; ring.
  - exists xs'. auto.
Qed.

Lemma phd_values o (f : nat -> nat -> R * R) : forall (sel : list (addr * target)) n rs (st : tracker) xs,
  NoDup (map fst sel) -> (forall x, In x sel -> heap st (fst x) = Some (snd x)) ->
  map (fun x => tg_r (snd x)) sel = map Fin rs -> (forall k s, s < 1000 -> near2 (f k s)) -> length xs = nx * ny ->
  exists st' xs', for_each (phd_target nx ny corner grid (fun k s => fins (f k s)) o) (combine (seq n (length sel)) (map fst sel)) (map Fin xs, st)
      = Ok (map Fin xs', st') /\ length xs' = nx * ny /\
    forall i j, i < nx -> j < ny -> nth (i * ny + j) xs' 0%R = (nth (i * ny + j) xs 0 +
      Rsum (map (fun k => nth k rs 0 * INR (hits x0 x1 y0 y1 nx ny i j 1000 (f (n + k)%nat))) (seq 0 (length rs))))%R.
Proof.
  induction sel as [|(a, t) sel IH]; intros n rs st xs Hn Hh Er Hf Hl.
  - destruct rs; [|discriminate]. exists st, xs. split; auto. split; auto. intros. unfold Rsum. simpl. ring.
  - destruct rs as [|r rs]; [discriminate|]. cbn [map snd] in Er. inversion Er as [[E1 E2]].
    cbn [length map fst seq combine for_each]. unfold Eval.phd_target at 1. cbn [snd fst]. unfold deref at 1.
    rewrite (Hh (a, t) ltac:(simpl; auto) : heap st a = Some t). cbn [bind]. unfold write, deref.
    rewrite (Hh (a, t) ltac:(simpl; auto) : heap st a = Some t). cbn [bind]. rewrite E1.
    destruct (samples_value 1000 r (f n) xs (Hf n) Hl) as (ys & Ey & Ly & Vy). rewrite Ey. cbn [bind].
    cbn [map fst] in Hn. inversion Hn as [|? ? Hna Hnd]; subst.
    match goal with |- context [for_each _ _ (_, ?s)] => set (st1 := s) end.
    destruct (IH (S n) rs st1 ys Hnd) as (st' & zs & Ez & Lz & Vz); auto.
    + intros (b, u) Hb. unfold st1. cbn [heap fst snd]. unfold heap_upd.
      destruct (Nat.eqb_spec b a) as [->|]; [|apply (Hh (b, u)); simpl; auto].
      exfalso. apply Hna. apply (in_map fst) in Hb. exact Hb.
    + exists st', zs. split; [exact Ez|]. split; auto. intros i j Hi Hj. rewrite Vz, Vy by auto.
      rewrite <- (seq_shift (length rs) 0). cbn [map]. rewrite map_map.
      replace (map (fun x : nat => (nth (S x) (r :: rs) 0 * INR (hits x0 x1 y0 y1 nx ny i j 1000 (f (n + S x)%nat)))%R) (seq 0 (length rs)))
        with (map (fun k : nat => (nth k rs 0 * INR (hits x0 x1 y0 y1 nx ny i j 1000 (f (S n + k)%nat)))%R) (seq 0 (length rs))).
      2: { apply map_ext. intros k. replace (n + S k) with (S n + k) by lia. reflexivity. }
      rewrite Nat.add_0_r. cbn [nth]. apply Rplus_assoc.
Qed.
End Value.

Variable box : P -> rect (ext R).

Lemma sel_probs (sel : list (addr * target)) : (forall x, In x sel -> prob (tg_r (snd x))) ->
  exists rs, map (fun x => tg_r (snd x)) sel = map Fin rs /\ nonneg_list rs.
Proof.
  intros Hp'. induction sel as [|x sel IH]; [exists []; split; auto; intros ? []|].
  destruct IH as (rs & E & H); [intros; apply Hp'; simpl; auto|].
  destruct (Hp' x ltac:(simpl; auto)) as (r & Er & Hr). exists (r :: rs). split; [simpl; congruence|]. intros y [<-|Hy]; auto. lra.
Qed.

Lemma phd_value (st : tracker) fov o x0 x1 y0 y1 nx ny (f : nat -> nat -> R * R) : consistent box st -> real_corners fov ->
  (forall x, In x (live st) -> prob (tg_r (snd x))) -> (x0 < x1)%R -> (y0 < y1)%R -> 0 < nx -> 0 < ny ->
  (forall k s, s < 1000 -> near x0 x1 nx (fst (f k s)) /\ near y0 y1 ny (snd (f k s))) ->
  exists sel rs xs st', inside box fov st sel /\ map (fun x => tg_r (snd x)) sel = map Fin rs /\
    pos_phd fov o (mkRect (Fin x0) (Fin y0) (Fin x1) (Fin y1)) nx ny (fun k s => (Fin (fst (f k s)), Fin (snd (f k s)))) st = Ok (map Fin xs, st') /\
    length xs = nx * ny /\ forall i j, i < nx -> j < ny -> nth (i * ny + j) xs 0%R = share_of x0 x1 y0 y1 nx ny rs f i j.
Proof.
  intros Hc Hq Hp Hx Hy Hnx Hny Hf. destruct (query_inside box st fov Hc Hq) as (sel & Eq & Hi). pose proof (inside_holds box st fov sel (proj1 Hc) Hi) as Hh.
  destruct (sel_probs sel) as (rs & Er & Hr); [intros x Hin; apply Hp, Hi, Hin|].
  assert (Hnd : NoDup (map fst sel)).
  { destruct (query_ok box st fov Hc Hq) as (l & El & Hnl & _). rewrite Eq in El. inversion El; subst. exact Hnl. }
  destruct (phd_values x0 x1 y0 y1 nx ny Hx Hy Hnx Hny o f sel 0 rs st (repeat 0%R (nx * ny)) Hnd Hh Er Hf (repeat_length _ _)) as (st' & xs & E & L & V).
  exists sel, rs, (map (fun x => x / 1000)%R xs), st'. split; auto. split; auto. split; [|split].
  - unfold Eval.pos_phd. rewrite Eq. cbn [bind]. cbv zeta. cbn [RTree.min0 RTree.min1 RTree.max0 RTree.max1]. rewrite map_length.
    replace (repeat (Fin 0%R) (nx * ny)) with (map (@Fin R) (repeat 0%R (nx * ny))) by apply fin_repeat.
    unfold fins in E. rewrite E. cbn [bind]. f_equal. f_equal. rewrite !map_map. apply map_ext. intros x.
    unfold xdiv, ediv. destruct (Reqb_spec 1000 0); [lra|reflexivity].
  - rewrite map_length. auto.
  - intros i j Hi' Hj. assert (Hk : i * ny + j < length xs) by (rewrite L; nia).
    rewrite (nth_indep _ 0%R ((fun x => x / 1000)%R 0%R)) by (rewrite map_length; auto). rewrite (map_nth (fun x => x / 1000)%R), V by auto.
    rewrite nth_repeat, Rplus_0_l. unfold share_of. cbn [Nat.add].
    generalize (seq 0 (length rs)). intros l. induction l as [|k l IH]; unfold Rsum in *; cbn [map fold_right]; [lra|]. rewrite <- IH.
    generalize (INR (hits x0 x1 y0 y1 nx ny i j 1000 (f k))). intros h. lra.
Qed.

Lemma phd_bound (st st' : tracker) fov o nebox nx ny samples m : consistent box st -> real_corners fov ->
  (forall x, In x (live st) -> prob (tg_r (snd x))) ->
  pos_phd fov o nebox nx ny samples st = Ok (m, st') ->
  exists sel rs xs, inside box fov st sel /\ map (fun x => tg_r (snd x)) sel = map Fin rs /\
    m = map Fin xs /\ length xs = nx * ny /\ nonneg_list xs /\ (Rsum xs <= Rsum rs)%R.
Proof.
  intros Hc Hq Hp E. destruct (query_inside box st fov Hc Hq) as (sel & Eq & Hi). pose proof (inside_holds box st fov sel (proj1 Hc) Hi) as Hh.
  unfold Eval.pos_phd in E. rewrite Eq in E. cbn [bind] in E. apply bind_ok in E. destruct E as ((m1, st1) & E1 & E). inversion E; subst.
  rewrite map_length in E1.
  destruct (sel_probs sel) as (rs & Er & Hr); [intros x Hin; apply Hp, Hi, Hin|]. exists sel, rs.
  assert (Hnd : NoDup (map fst sel)).
  { destruct (query_ok box st fov Hc Hq) as (l & El & Hnl & _). rewrite Eq in El. inversion El; subst. exact Hnl. }
  replace (repeat (Fin 0%R) (nx * ny)) with (map (@Fin R) (repeat 0%R (nx * ny))) in E1 by apply fin_repeat.
  assert (Hz : nonneg_list (repeat 0%R (nx * ny))) by (intros x Hx; apply repeat_spec in Hx; lra).
  destruct (phd_sum _ _ _ _ _ _ sel 0 rs st st' _ m1 Hnd Hh Er Hr Hz E1) as (xs & -> & El & Hn & Hs).
  rewrite repeat_length in El. rewrite Rsum_repeat0 in Hs.
  exists (map (fun x => x / 1000)%R xs). split; auto. split; auto. split.
  { rewrite !map_map. apply map_ext. intros x. unfold xdiv, ediv. destruct (Reqb_spec 1000 0); [lra|reflexivity]. }
  split; [rewrite map_length; auto|]. split.
  - intros x Hx. apply in_map_iff in Hx. destruct Hx as (y & <- & Hy). specialize (Hn y Hy). lra.
  - assert (E2 : Rsum (map (fun x => x / 1000)%R xs) = (Rsum xs / 1000)%R).
    { clear. induction xs as [|x xs IH]; unfold Rsum in *; simpl; [lra|]. rewrite IH. lra. }
    rewrite E2. lra.
Qed.
End Proofs.
