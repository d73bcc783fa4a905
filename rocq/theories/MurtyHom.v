(** Murty's algorithm commutes with maps between number types that respect the
    operations it uses: solving and partitioning states. *)
From Coq Require Import List Arith Bool Lia.
Import ListNotations.
From Verif Require Import Res Scalar Lap Murty LapHom.

Lemma remove_nth_rmap {A B} (f : A -> B) l k : remove_nth (map f l) k = rmap (map f) (remove_nth l k).
Proof.
  unfold remove_nth. rewrite map_length. destruct (k <? length l); cbn [rmap]; auto.
  rewrite map_app, firstn_map, skipn_map. auto.
Qed.

Lemma mapM_map {A B B'} (f : A -> res B) (f' : A -> res B') (g : B -> B') l :
  (forall x, f' x = rmap g (f x)) -> mapM f' l = rmap (map g) (mapM f l).
Proof.
  intros H. induction l as [|a l IH]; simpl; auto. rewrite H, IH. destruct (f a); simpl; auto. destruct (mapM f l); auto.
Qed.

Section Hom.
Context {T T' : Type} (N : Num T) (N' : Num T') (p : T -> T').
Hypothesis h0 : n0 N' = p (n0 N).
Hypothesis hinf : ninf N' = p (ninf N).
Hypothesis hadd : forall x y, nadd N' (p x) (p y) = p (nadd N x y).
Hypothesis hsub : forall x y, nsub N' (p x) (p y) = p (nsub N x y).
Hypothesis hlt : forall x y, nlt N' (p x) (p y) = nlt N x y.
Hypothesis hle : forall x y, nle N' (p x) (p y) = nle N x y.
Hypothesis heq : forall x y, neq N' (p x) (p y) = neq N x y.
Hypothesis hisinf : forall x, nisinf N' (p x) = nisinf N x.

Notation P := (map p).
Notation PM := (pm p).

Lemma at_map C i j : at_ (PM C) i j = rmap p (at_ C i j).
Proof.
  unfold at_, pm. cbn [m_rows m_cols m_ord m_data]. destruct ((i <? m_rows C) && (j <? m_cols C)); auto.
  rewrite get_map. auto.
Qed.

Lemma allbut_map C r c : allbut (PM C) r c = rmap PM (allbut C r c).
Proof.
  unfold allbut. change (m_rows (PM C)) with (m_rows C). change (m_cols (PM C)) with (m_cols C).
  destruct ((r <? m_rows C) && (c <? m_cols C)); auto.
  rewrite (mapM_map _ _ p _ (fun ab => at_map C _ _)). destruct (mapM _ _); reflexivity.
Qed.

Lemma set_at_map C i j x : set_at (PM C) i j (p x) = rmap PM (set_at C i j x).
Proof.
  unfold set_at. change (m_rows (PM C)) with (m_rows C). change (m_cols (PM C)) with (m_cols C).
  destruct ((i <? m_rows C) && (j <? m_cols C)); auto. cbn [pm m_data]. rewrite set_map.
  destruct (set (m_data C) (i * m_cols C + j) x); reflexivity.
Qed.

Definition pst (s : mstate (T := T)) : mstate (T := T') :=
  mkSt (PM (s_C s)) (P (s_u s)) (P (s_v s)) (p (s_cost s)) (p (s_bound s)) (s_solved s) (s_sol s) (s_res s)
       (s_rmap s) (s_cmap s).

Lemma with_map s i j : partition_with N' (pst s) i j = rmap pst (partition_with N s i j).
Proof.
  unfold partition_with. cbn [pst s_C s_u s_v s_cost s_bound s_solved s_sol s_res s_rmap s_cmap].
  rewrite allbut_map. destruct (allbut (s_C s) i j) as [C| |]; cbn [rmap bind]; auto.
  rewrite !remove_nth_rmap.
  destruct (remove_nth (s_u s) i) as [u| |]; cbn [rmap bind]; auto.
  destruct (remove_nth (s_v s) j) as [v| |]; cbn [rmap bind]; auto.
  destruct (remove_nth (s_rmap s) i) as [rm| |]; cbn [rmap bind]; auto.
  destruct (remove_nth (s_cmap s) j) as [cm| |]; cbn [rmap bind]; auto.
  rewrite at_map. destruct (at_ (s_C s) i j) as [x| |]; cbn [rmap bind]; auto. rewrite hadd. reflexivity.
Qed.

Lemma without_map s i j d : partition_without N' (pst s) i j (p d) = rmap pst (partition_without N s i j d).
Proof.
  unfold partition_without. cbn [pst s_C s_u s_v s_cost s_bound s_solved s_sol s_res s_rmap s_cmap].
  rewrite hinf, set_at_map. destruct (set_at (s_C s) i j (ninf N)) as [C| |]; cbn [rmap bind]; auto.
  rewrite hadd. reflexivity.
Qed.

Lemma solve_map fuel s : solve N' fuel (pst s) = rmap (fun r => (pst (fst r), snd r)) (solve N fuel s).
Proof.
  unfold solve. cbn [pst s_C s_u s_v s_cost s_bound s_solved s_sol s_res s_rmap s_cmap].
  unfold lap. rewrite (lap_build_map N N' p h0 hinf hadd hsub hlt hle heq hisinf).
  destruct (lap_build N false fuel (s_C s)) as [r| |]; cbn [rmap bind]; auto.
  change (l_ok (pl p r)) with (l_ok r). change (l_rowsol (pl p r)) with (l_rowsol r).
  destruct (l_ok r); [|reflexivity].
  apply (rmap_bind (fun st : list (option nat) * T => (fst st, p (snd st)))).
  - refine (for_map (fun st : list (option nat) * T => (fst st, p (snd st))) _ _ _ _ (s_sol s, s_bound s) _).
    intros k [sol cost]. cbn [fst snd].
    destruct (get (l_rowsol r) k) as [oj| |]; cbn [rmap bind]; auto.
    destruct (idx oj) as [j| |]; cbn [rmap bind]; auto.
    destruct (get (s_rmap s) k) as [ri| |]; cbn [rmap bind]; auto.
    destruct (get (s_cmap s) j) as [cj| |]; cbn [rmap bind]; auto.
    destruct (set sol ri (Some cj)) as [sol'| |]; cbn [rmap bind]; auto.
    rewrite at_map. destruct (at_ (s_C s) k j) as [x| |]; cbn [rmap bind]; auto. rewrite hadd. reflexivity.
  - intros [sol cost]. cbn [fst snd rmap]. rewrite hinf, hlt. reflexivity.
Qed.

Definition pt (a : T * nat * nat) : T' * nat * nat := let '(x, i, j) := a in (p x, i, j).

Lemma tuple_map a b : tuple_lt N' (pt a) (pt b) = tuple_lt N a b.
Proof. destruct a as [[x i] j], b as [[x' i'] j']. simpl. rewrite !hlt. auto. Qed.

Lemma sort_map l : sort_desc N' (map pt l) = map pt (sort_desc N l).
Proof.
  assert (I : forall a l, insert_desc N' (pt a) (map pt l) = map pt (insert_desc N a l)).
  { intros a l0. induction l0 as [|b l0 IH]; simpl; auto. rewrite tuple_map. destruct (tuple_lt N a b); simpl; congruence. }
  unfold sort_desc. induction l as [|a l IH]; simpl; auto. rewrite IH. apply I.
Qed.

Lemma sort_by_dual_map s : sort_by_dual N' (pst s) = rmap (map pt) (sort_by_dual N s).
Proof.
  unfold sort_by_dual. cbn [pst s_C s_u s_v s_cost s_bound s_solved s_sol s_res s_rmap s_cmap].
  apply (rmap_bind (map pt)); [|intros l; cbn [rmap]; rewrite sort_map; auto].
  apply mapM_map. intros i.
  destruct (get (s_res s) i) as [oj| |]; cbn [rmap bind]; auto.
  destruct (idx oj) as [ri| |]; cbn [rmap bind]; auto.
  apply (rmap_bind p); [|reflexivity].
  rewrite hinf. refine (for_map p _ _ _ _ (ninf N) _). intros j best.
  destruct (j =? ri); auto. rewrite at_map. destruct (at_ (s_C s) i j) as [x| |]; cbn [rmap bind]; auto.
  rewrite hle. destruct (nle N (ninf N) x); auto.
  rewrite get_map. destruct (get (s_u s) i) as [ui| |]; cbn [rmap bind]; auto.
  rewrite get_map. destruct (get (s_v s) j) as [vj| |]; cbn [rmap bind]; auto.
  rewrite !hsub, hlt. destruct (nlt N (nsub N (nsub N x ui) vj) best); reflexivity.
Qed.

Lemma index_map prev i j : get_partition_index (map pt prev) i j = get_partition_index prev i j.
Proof.
  unfold get_partition_index. f_equal; f_equal; induction prev as [|[[x a] b] prev IH]; simpl; auto.
  - destruct (a <? i); simpl; auto.
  - destruct (b <? j); simpl; auto.
Qed.

Lemma push_map rest : forall prev node q,
  push_children N' (map pt prev) (map pt rest) (pst node) (map pst q) = rmap (map pst) (push_children N prev rest node q).
Proof.
  induction rest as [|[[d i] j] rest IH]; intros prev node q; [reflexivity|].
  cbn [map pt push_children]. rewrite index_map. destruct (get_partition_index prev i j) as [i' j'].
  rewrite hinf, hlt.
  apply (rmap_bind (map pst)).
  - destruct (nlt N d (ninf N)); auto. rewrite without_map.
    destruct (partition_without N node i' j' d) as [c| |]; cbn [rmap bind]; auto. rewrite map_app. auto.
  - intros q'. apply (rmap_bind pst); [apply with_map|]. intros node'.
    change [(p d, i, j)] with (map pt [(d, i, j)]). rewrite <- map_app. apply IH.
Qed.
End Hom.
