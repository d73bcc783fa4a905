(** The assignment solver commutes with maps between number types that respect
    the operations it uses. *)
From Coq Require Import List Arith Bool Lia ZArith.
Import ListNotations.
From Verif Require Import Res Scalar Lap.

Definition rmap {A B} (f : A -> B) (m : res A) : res B :=
  match m with Ok a => Ok (f a) | UB => UB | OutOfFuel => OutOfFuel end.

Lemma rmap_bind {A B A' B'} (f : A -> A') (g : B -> B') (m : res A) m' (k : A -> res B) k' :
  m' = rmap f m -> (forall a, k' (f a) = rmap g (k a)) -> bind m' k' = rmap g (bind m k).
Proof. intros -> H. destruct m; simpl; auto. Qed.

Lemma get_map {A B} (f : A -> B) l i : get (map f l) i = rmap f (get l i).
Proof. unfold get. rewrite nth_error_map. destruct (nth_error l i); reflexivity. Qed.

Lemma upd_map {A B} (f : A -> B) l i x : upd (map f l) i (f x) = map f (upd l i x).
Proof. revert i; induction l; intros [|i]; simpl; f_equal; auto. Qed.

Lemma set_map {A B} (f : A -> B) l i x : set (map f l) i (f x) = rmap (map f) (set l i x).
Proof. unfold set. rewrite map_length. destruct (i <? length l); simpl; auto. rewrite upd_map. auto. Qed.

Lemma for_map {A B} (f : A -> B) n a body body' s :
  (forall k s, body' k (f s) = rmap f (body k s)) ->
  for_loop n a body' (f s) = rmap f (for_loop n a body s).
Proof.
  intros H. revert a s. induction n; intros a s; simpl; auto.
  rewrite H. destruct (body a s); simpl; auto.
Qed.

Lemma for_break_map {A B} (f : A -> B) n a body body' s :
  (forall k s, body' k (f s) = rmap (fun r => (f (fst r), snd r)) (body k s)) ->
  for_break n a body' (f s) = rmap f (for_break n a body s).
Proof.
  intros H. revert a s. induction n; intros a s; simpl; auto.
  rewrite H. destruct (body a s) as [[s' b]| |]; simpl; auto. destruct b; simpl; auto.
Qed.

Section Hom.
Context {T T' : Type} (N : Num T) (N' : Num T') (p : T -> T').
Hypothesis h0 : n0 N' = p (n0 N).
Hypothesis hinf : ninf N' = p (ninf N).
Hypothesis hadd : forall x y, nadd N' (p x) (p y) = p (nadd N x y).
Hypothesis hsub : forall x y, nsub N' (p x) (p y) = p (nsub N x y).
Hypothesis hlt : forall x y, nlt N' (p x) (p y) = nlt N x y.
Hypothesis hle : forall x y, nle N' (p x) (p y) = nle N x y.
Hypothesis heq : forall x y, neq N' (p x) (p y) = neq N x y.
Hypothesis hisinf : forall x, nisinf N' (p x) = nisinf N x.

Notation P := (map p).
Notation st := (T * T * option nat * option nat)%type.
Definition ps (s : st) := let '(a, b, j1, j2) := s in (p a, p b, j1, j2).

Ltac st := match goal with |- context [get (P ?l) ?i] => rewrite (get_map p l i); destruct (get l i); simpl; [|reflexivity|reflexivity] end.

Lemma umins_step_map j h s : umins_step N' j (p h) (ps s) = ps (umins_step N j h s).
Proof.
  destruct s as [[[a b] j1] j2]. simpl. rewrite hlt, hle.
  destruct (nlt N h b); auto. destruct (nle N a h); auto.
Qed.

Lemma plain_map dim i C v : find_umins_plain N' dim i (P C) (P v) = rmap ps (find_umins_plain N dim i C v).
Proof.
  unfold find_umins_plain. st. st. rewrite hsub, hinf.
  match goal with |- for_loop ?n ?a ?b _ = rmap _ (for_loop _ _ ?b' ?s) => refine (for_map ps n a b' b s _) end.
  intros k s. st. st. rewrite hsub, umins_step_map. auto.
Qed.

Lemma lane_step_map j h s : lane_step N' j (p h) (ps s) = ps (lane_step N j h s).
Proof.
  destruct s as [[[a b] j1] j2]. simpl. rewrite hlt, hle.
  destruct (nle N h a); auto. destruct (nlt N h b); auto.
Qed.

Lemma lanes_step_map i dim j C v ls : lanes_step N' i dim j (P C) (P v) (map ps ls) = rmap (map ps) (lanes_step N i dim j C v ls).
Proof.
  revert j. induction ls as [|l ls IH]; intros j; simpl; auto. st. st. rewrite IH.
  destruct (lanes_step N i dim (S j) C v ls); simpl; auto. rewrite hsub, lane_step_map. auto.
Qed.

Lemma merge_min_map ls s : merge_min N' (map ps ls) (ps s) = ps (merge_min N ls s).
Proof.
  unfold merge_min. revert s. induction ls as [|l ls IH]; intros s; simpl; auto. rewrite <- IH. f_equal.
  destruct s as [[[a b] j1] j2], l as [[[h h'] k1] k2]. simpl. rewrite hlt, hle.
  destruct (nlt N h b); auto. destruct (nle N a h); auto.
Qed.

Lemma merge_sub_map ls s : merge_sub N' (map ps ls) (ps s) = ps (merge_sub N ls s).
Proof.
  unfold merge_sub. revert s. induction ls as [|l ls IH]; intros s; simpl; auto. rewrite <- IH. f_equal.
  destruct s as [[[a b] j1] j2], l as [[[h h'] k1] k2]. simpl. rewrite hlt.
  destruct (nlt N h' b); auto.
Qed.

Lemma avx2_map dim i C v : find_umins_avx2 N' dim i (P C) (P v) = rmap ps (find_umins_avx2 N dim i C v).
Proof.
  unfold find_umins_avx2. apply (rmap_bind (map ps)).
  - change (repeat (ninf N', ninf N', None, None) 4) with (map (fun _ : nat => (ninf N', ninf N', @None nat, @None nat)) [0;0;0;0]).
    rewrite hinf.
    change (map (fun _ : nat => (p (ninf N), p (ninf N), @None nat, @None nat)) [0;0;0;0])
      with (map ps (repeat (ninf N, ninf N, None, None) 4)).
    match goal with |- for_loop ?n ?a ?b _ = rmap _ (for_loop _ _ ?b' ?s) => refine (for_map (map ps) n a b' b s _) end.
    intros k s. apply lanes_step_map.
  - intros ls. rewrite hinf. change (p (ninf N), p (ninf N), @None nat, @None nat) with (ps (ninf N, ninf N, None, None)).
    rewrite merge_min_map, merge_sub_map.
    match goal with |- for_loop ?n ?a ?b _ = rmap _ (for_loop _ _ ?b' ?s) => refine (for_map ps n a b' b s _) end.
    intros k s. st. st. rewrite hsub, umins_step_map. auto.
Qed.

Definition pu (s : T * T * nat * option nat) := let '(a, b, j1, j2) := s in (p a, p b, j1, j2).

Lemma umins_map simd dim i C v : find_umins N' simd dim i (P C) (P v) = rmap pu (find_umins N simd dim i C v).
Proof.
  unfold find_umins. apply (rmap_bind ps).
  - destruct (simd && negb (Z.of_nat dim <? 100000)%Z); [apply avx2_map|apply plain_map].
  - intros [[[a b] j1] j2]. simpl. destruct j1; reflexivity.
Qed.

Definition pa (s : arr (T := T)) : arr (T := T') :=
  mkArr (a_free s) (a_rowsol s) (a_colsol s) (P (a_v s)) (a_k s) (a_numfree s).

Ltac bd t := destruct t; simpl; [|reflexivity|reflexivity].

Lemma arr_step_map simd dim1 C s : arr_step N' simd dim1 (P C) (pa s) = rmap pa (arr_step N simd dim1 C s).
Proof.
  destruct s as [fr rs cs v k nf]. unfold arr_step, pa. cbn [a_free a_rowsol a_colsol a_v a_k a_numfree].
  destruct (get fr k) as [i| |]; cbn [bind rmap]; auto. rewrite umins_map.
  destruct (find_umins N simd dim1 i C v) as [[[[a b] j1] j2]| |]; cbn [bind rmap pu]; auto.
  destruct (get cs j1) as [i0| |]; cbn [bind rmap]; auto. rewrite get_map.
  destruct (get v j1) as [vj| |]; cbn [bind rmap]; auto. rewrite !hsub, hlt.
  destruct (nlt N (nsub N vj (nsub N b a)) vj).
  - rewrite set_map. destruct (set v j1 (nsub N vj (nsub N b a))) as [v'| |]; cbn [bind rmap]; auto.
    destruct (set rs i (Some j1)) as [rs'| |]; cbn [bind rmap]; auto.
    destruct (set cs j1 (Some i)) as [cs'| |]; cbn [bind rmap]; auto.
    destruct i0 as [i0|]; auto.
    destruct (set fr (S k - 1) i0) as [fr'| |]; cbn [bind rmap]; auto.
  - destruct i0 as [i0|].
    + destruct (idx j2) as [j2'| |]; cbn [bind rmap]; auto.
      destruct (get cs j2') as [i1| |]; cbn [bind rmap]; auto.
      destruct (set rs i (Some j2')) as [rs'| |]; cbn [bind rmap]; auto.
      destruct (set cs j2' (Some i)) as [cs'| |]; cbn [bind rmap]; auto.
      destruct i1 as [i1|]; auto.
      destruct (set fr nf i1) as [fr'| |]; cbn [bind rmap]; auto.
    + cbn [bind].
      destruct (set rs i (Some j1)) as [rs'| |]; cbn [bind rmap]; auto.
      destruct (set cs j1 (Some i)) as [cs'| |]; cbn [bind rmap]; auto.
Qed.

Lemma arr_loop_map simd fuel dim1 C prev s :
  arr_loop N' simd fuel dim1 (P C) prev (pa s) = rmap pa (arr_loop N simd fuel dim1 C prev s).
Proof.
  revert s. induction fuel as [|fuel IH]; intros s; cbn [arr_loop].
  - change (a_k (pa s)) with (a_k s). destruct (a_k s <? prev); auto.
  - change (a_k (pa s)) with (a_k s). destruct (a_k s <? prev); auto.
    apply (rmap_bind pa); [apply arr_step_map|]. intros s'. apply IH.
Qed.

Lemma arr_pass_map simd fuel dim1 C s : arr_pass N' simd fuel dim1 (P C) (pa s) = rmap pa (arr_pass N simd fuel dim1 C s).
Proof. unfold arr_pass. apply (arr_loop_map simd fuel dim1 C (a_numfree s) (mkArr (a_free s) (a_rowsol s) (a_colsol s) (a_v s) 0 0)). Qed.

Definition pd (s : dij (T := T)) : dij (T := T') :=
  mkDij (P (p_d s)) (p_pred s) (p_collist s) (p_low s) (p_up s) (p_last s) (p (p_min s)) (p_end s).

Lemma find_min_map dim1 d cl low up :
  find_min N' dim1 (P d) cl low up = rmap (fun r => let '(cl, up, m) := r in (cl, up, p m)) (find_min N dim1 d cl low up).
Proof.
  unfold find_min. destruct (get cl up) as [c0| |]; cbn [bind rmap]; auto.
  rewrite get_map. destruct (get d c0) as [m0| |]; cbn [bind rmap]; auto.
  match goal with |- for_loop ?n ?a ?b _ = rmap ?f (for_loop _ _ ?b' ?s) => refine (for_map f n a b' b s _) end.
  intros k [[cl' up'] mn]. cbn.
  destruct (get cl' k) as [j| |]; cbn [bind rmap]; auto.
  rewrite get_map. destruct (get d j) as [h| |]; cbn [bind rmap]; auto.
  rewrite hle, hlt. destruct (nle N h mn); auto. destruct (nlt N h mn).
  - destruct (get cl' low) as [cu| |]; cbn [bind rmap]; auto.
    destruct (set cl' k cu) as [cl1| |]; cbn [bind rmap]; auto.
    destruct (set cl1 low j) as [cl2| |]; cbn [bind rmap]; auto.
  - destruct (get cl' up') as [cu| |]; cbn [bind rmap]; auto.
    destruct (set cl' k cu) as [cl1| |]; cbn [bind rmap]; auto.
    destruct (set cl1 up' j) as [cl2| |]; cbn [bind rmap]; auto.
Qed.

Definition pq (s : list T * list nat * list nat * nat * option nat) :=
  let '(d, pr, cl, up, e) := s in (P d, pr, cl, up, e).

Lemma scan_map dim1 C v cs s : scan_column N' dim1 (P C) (P v) cs (pd s) = rmap pd (scan_column N dim1 C v cs s).
Proof.
  destruct s as [d pr cl low up last mn e]. unfold scan_column, pd.
  cbn [p_d p_pred p_collist p_low p_up p_last p_min p_end].
  destruct (get cl low) as [j1| |]; cbn [bind rmap]; auto.
  destruct (get cs j1) as [ci| |]; cbn [bind rmap]; auto.
  destruct (idx ci) as [i| |]; cbn [bind rmap]; auto.
  rewrite get_map. destruct (get C (i * dim1 + j1)) as [c1| |]; cbn [bind rmap]; auto.
  rewrite get_map. destruct (get v j1) as [v1| |]; cbn [bind rmap]; auto.
  cbv zeta. rewrite !hsub. apply (rmap_bind pq).
  - match goal with |- for_break ?n ?a ?b _ = rmap _ (for_break _ _ ?b' ?s) => refine (for_break_map pq n a b' b s _) end.
    intros k [[[[d' pr'] cl'] up'] e']. cbn [pq].
    destruct (get cl' k) as [j| |]; cbn [bind rmap]; auto.
    rewrite get_map. destruct (get C (i * dim1 + j)) as [cj| |]; cbn [bind rmap]; auto.
    rewrite get_map. destruct (get v j) as [vj| |]; cbn [bind rmap]; auto.
    rewrite get_map. destruct (get d' j) as [dj| |]; cbn [bind rmap]; auto.
    rewrite !hsub, hlt. match goal with |- context [nlt N ?x dj] => set (v2 := x) end.
    destruct (nlt N v2 dj); auto.
    destruct (set pr' j i) as [pr''| |]; cbn [bind rmap]; auto.
    rewrite heq. destruct (neq N v2 mn).
    + destruct (get cs j) as [cj'| |]; cbn [bind rmap]; auto. destruct cj'; auto.
      destruct (get cl' up') as [cu| |]; cbn [bind rmap]; auto.
      destruct (set cl' k cu) as [cl1| |]; cbn [bind rmap]; auto.
      destruct (set cl1 up' j) as [cl2| |]; cbn [bind rmap]; auto.
      rewrite set_map. destruct (set d' j v2) as [d2| |]; cbn [bind rmap]; auto.
    + rewrite set_map. destruct (set d' j v2) as [d2| |]; cbn [bind rmap]; auto.
  - intros [[[[d' pr'] cl'] up'] e']. reflexivity.
Qed.

Lemma dij_step_map dim1 C v cs s : dij_step N' dim1 (P C) (P v) cs (pd s) = rmap pd (dij_step N dim1 C v cs s).
Proof.
  unfold dij_step. apply (rmap_bind pd).
  - destruct s as [d pr cl low up last mn e]. unfold pd. cbn [p_d p_pred p_collist p_low p_up p_last p_min p_end].
    destruct (up =? low); auto. rewrite find_min_map.
    destruct (find_min N dim1 d cl low up) as [[[cl' up'] mn']| |]; cbn [bind rmap]; auto.
    destruct (find_unassigned cs cl' low up') as [e'| |]; cbn [bind rmap]; auto.
  - intros s'. change (p_end (pd s')) with (p_end s'). destruct (p_end s'); auto. apply scan_map.
Qed.

Lemma dij_loop_map fuel dim1 C v cs s :
  dij_loop N' fuel dim1 (P C) (P v) cs (pd s) = rmap (fun r => (pd (fst r), snd r)) (dij_loop N fuel dim1 C v cs s).
Proof.
  revert s. induction fuel as [|fuel IH]; intros s; cbn [dij_loop]; auto.
  rewrite dij_step_map. destruct (dij_step N dim1 C v cs s) as [s'| |]; cbn [bind rmap]; auto.
  change (p_end (pd s')) with (p_end s'). destruct (p_end s'); auto.
Qed.

Lemma prices_map v s : update_prices N' (P v) (pd s) = rmap P (update_prices N v s).
Proof.
  unfold update_prices. change (p_last (pd s)) with (p_last s). refine (for_map P _ _ _ _ v _).
  intros k v'. cbn [pd p_collist p_d p_min].
  destruct (get (p_collist s) k) as [j| |]; cbn [bind rmap]; auto.
  rewrite get_map. destruct (get v' j) as [vj| |]; cbn [bind rmap]; auto.
  rewrite get_map. destruct (get (p_d s) j) as [dj| |]; cbn [bind rmap]; auto.
  rewrite hadd, hsub, set_map. auto.
Qed.

Definition pg (s : list (option nat) * list (option nat) * list T) := let '(rs, cs, v) := s in (rs, cs, P v).

Lemma augment_map dim0 dim1 C f s : augment N' dim0 dim1 (P C) f (pg s) = rmap pg (augment N dim0 dim1 C f s).
Proof.
  destruct s as [[rs cs] v]. unfold augment, pg. apply (rmap_bind P).
  - change (@nil T') with (P []). refine (for_map P _ _ _ _ [] _). intros k d.
    rewrite get_map. destruct (get C (f * dim1 + k)) as [ck| |]; cbn [bind rmap]; auto.
    rewrite get_map. destruct (get v k) as [vk| |]; cbn [bind rmap]; auto.
    rewrite map_app, hsub. reflexivity.
  - intros d. apply (rmap_bind (fun r => (pd (fst r), snd r))).
    + rewrite h0. apply (dij_loop_map (S dim1) dim1 C v cs (mkDij d (repeat f dim1) (seq 0 dim1) 0 0 0 (n0 N) None)).
    + intros [s e]. cbn [fst snd]. apply (rmap_bind P); [apply prices_map|]. intros v'.
      change (p_pred (pd s)) with (p_pred s).
      destruct (flip_path (S dim1) (p_pred s) f e rs cs) as [[rs' cs']| |]; reflexivity.
Qed.

Definition pr (s : list (option nat) * list (option nat) * list T * list T * T) :=
  let '(rs, cs, u, v, c) := s in (rs, cs, P u, P v, p c).

Lemma rlap_map simd fuel dim0 dim1 C u v :
  rlap N' simd fuel dim0 dim1 (P C) (P u) (P v) = rmap pr (rlap N simd fuel dim0 dim1 C u v).
Proof.
  unfold rlap. apply (rmap_bind pa).
  { apply (arr_pass_map simd fuel dim1 C (mkArr (seq 0 dim0) (repeat None dim0) (repeat None dim1) v 0 dim0)). }
  intros s1. apply (rmap_bind pa); [apply arr_pass_map|]. intros s2. apply (rmap_bind pg).
  { cbn [pa a_numfree a_free a_rowsol a_colsol a_v].
    refine (for_map pg _ _ _ _ (a_rowsol s2, a_colsol s2, a_v s2) _). intros k s.
    destruct (get (a_free s2) k) as [i| |]; cbn [bind rmap]; auto. apply augment_map. }
  intros [[rs cs] v']. cbn [pg]. apply (rmap_bind (fun r : list T * T => (P (fst r), p (snd r)))).
  { rewrite h0. refine (for_map (fun r : list T * T => (P (fst r), p (snd r))) _ _ _ _ (u, n0 N) _).
    intros k [u' c']. cbn [fst snd].
    destruct (get rs k) as [j| |]; cbn [bind rmap]; auto. destruct j as [j|]; auto.
    rewrite get_map. destruct (get C (k * dim1 + j)) as [cj| |]; cbn [bind rmap]; auto.
    rewrite get_map. destruct (get v' j) as [vj| |]; cbn [bind rmap]; auto.
    rewrite hsub, hadd, set_map. destruct (set u' k (nsub N cj vj)) as [u2| |]; reflexivity. }
  intros [u' c']. reflexivity.
Qed.

Definition pm (C : matrix T) : matrix T' := mkMat (m_rows C) (m_cols C) (m_ord C) (P (m_data C)).

Lemma hall_check_map C : hall_check N' (pm C) = hall_check N C.
Proof.
  unfold hall_check. cbn [pm m_rows]. f_equal.
  assert (E : forall A (m : res A), rmap (fun x => x) m = m) by (intros A []; auto).
  rewrite <- E. refine (for_break_map (fun b : bool => b) _ _ _ _ true _). intros k s.
  assert (Es : hall_subset N' (pm C) k = hall_subset N C k).
  { unfold hall_subset. cbn [pm m_cols]. f_equal. rewrite <- E.
    refine (for_break_map (fun s : nat * bool => s) _ _ _ _ (0, false) _). intros col [nb b]. cbn [fst].
    assert (Ec : hall_col N' (pm C) k (popcount k) col nb = hall_col N C k (popcount k) col nb).
    { unfold hall_col. cbn [pm m_rows]. rewrite <- E.
      refine (for_break_map (fun s : nat * bool => s) _ _ _ _ (nb, false) _). intros row [nb' b'].
      destruct (bit_of k row) as [bb| |]; cbn [bind rmap]; auto. destruct bb; auto.
      unfold at_. cbn [pm m_rows m_cols m_ord m_data].
      destruct ((row <? m_rows C) && (col <? m_cols C)); auto.
      rewrite get_map. match goal with |- context [get (m_data C) ?i] => destruct (get (m_data C) i) as [x| |] end; cbn [bind rmap]; auto.
      rewrite hisinf. destruct (negb (nisinf N x)); auto. cbv zeta.
      destruct (S nb' <? popcount k); auto. destruct (S nb' =? popcount k); auto. }
    rewrite Ec. destruct (hall_col N C k (popcount k) col nb) as [[nb' b']| |]; auto. }
  rewrite Es. destruct (hall_subset N C k) as [b| |]; auto.
Qed.

Definition pl (r : lap_result (T := T)) : lap_result (T := T') :=
  mkLap (l_ok r) (l_rowsol r) (P (l_u r)) (P (l_v r)).

Lemma lap_build_map simd fuel C : lap_build N' simd fuel (pm C) = rmap pl (lap_build N simd fuel C).
Proof.
  unfold lap_build. rewrite hall_check_map. destruct (hall_check N C) as [ok| |]; cbn [bind rmap]; auto.
  cbn [pm m_rows m_cols m_data]. rewrite h0.
  assert (Er : forall k, repeat (p (n0 N)) k = P (repeat (n0 N) k)) by (intros k; induction k; simpl; congruence).
  destruct ok.
  - rewrite !Er, rlap_map.
    destruct (rlap N simd fuel (m_rows C) (m_cols C) (m_data C) (repeat (n0 N) (m_rows C)) (repeat (n0 N) (m_cols C)))
      as [[[[[rs cs] u] v] c]| |]; reflexivity.
  - rewrite !Er. reflexivity.
Qed.
End Hom.
