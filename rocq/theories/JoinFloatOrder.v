(** Joining in doubles: order of the components. *)
From Coq Require Import List Arith ZArith Bool Reals Lra Lia Permutation Sorted.
From Flocq Require Import Core BinarySingleNaN IEEE754.PrimFloat.
From Coq Require Import Floats.
Import ListNotations.
From Verif Require Import Res FloatBase GM GMFloat GMFloatSpec JoinFloat JoinFloatSpec.
From Verif Require GMProofs.
Local Open Scope nat_scope.

Section Order.
Context {G : Type}.
Notation fcm := (fcm (G := G)).
Notation v g := (FloatBase.val (fst g)).

Definition fdecreasing (c : list fcm) : Prop := StronglySorted (fun a b => (v b <= v a)%R) c.
Definition fheaviest (c rest : list fcm) : Prop :=
  fdecreasing c /\ forall x y, In x c -> In y rest -> (v y <= v x)%R.

Lemma fdecreasing_app_inv (a b : list fcm) : fdecreasing (a ++ b) -> fdecreasing a /\ fdecreasing b /\
  forall x y, In x a -> In y b -> (v y <= v x)%R.
Proof.
  unfold fdecreasing. induction a as [|z a IH]; intros H; simpl in *.
  - split; [constructor|]. split; auto. intros x y [].
  - inversion H; subst. destruct (IH H2) as (Ha & Hb & Hab). rewrite Forall_forall in H3. split.
    + constructor; auto. apply Forall_forall. intros x Hx. apply H3. apply in_or_app; auto.
    + split; auto. intros x y [<-|Hx] Hy; auto. apply H3. apply in_or_app; auto.
Qed.

Lemma ltb_val x y : fin x -> fin y -> PrimFloat.ltb x y = Rlt_bool (FloatBase.val x) (FloatBase.val y).
Proof. apply f_lt. Qed.

Lemma pop_top_spec (q : list (float * nat)) : (forall y, In y q -> fin (fst y)) -> match fpop_top q with
  | None => q = []
  | Some (x, q') => Permutation q (x :: q') /\ forall y, In y q -> (v y <= v x)%R
  end.
Proof.
  induction q as [|x q IH]; intros F; simpl; auto. specialize (IH (fun y Hy => F y (or_intror Hy))).
  destruct (fpop_top q) as [(y, q')|].
  - destruct IH as (Hp & Hm).
    assert (Fx : fin (fst x)) by (apply F; simpl; auto).
    assert (Fy : fin (fst y)). { apply F. right. eapply Permutation_in; [symmetry; exact Hp|simpl; auto]. }
    unfold fpair_ltb. rewrite !ltb_val by auto.
    assert (Hy : forall z, In z q -> (v z <= v y)%R) by auto.
    destruct (Rlt_bool_spec (v x) (v y)).
    + split. { rewrite Hp. apply perm_swap. } intros z [<-|Hz]; [lra|auto].
    + destruct (Rlt_bool_spec (v y) (v x)).
      * split. { apply perm_skip. auto. } intros z [<-|Hz]; [lra|]. specialize (Hy z Hz). lra.
      * assert (v x = v y) by lra. destruct (snd x <? snd y).
        -- split. { rewrite Hp. apply perm_swap. } intros z [<-|Hz]; [lra|auto].
        -- split. { apply perm_skip. auto. } intros z [<-|Hz]; [lra|]. specialize (Hy z Hz). lra.
  - subst q. split; auto. intros z [<-|[]]. lra.
Qed.

Lemma split_seq j n : j < n -> exists l1 l2, seq 0 n = l1 ++ j :: l2 /\ ~ In j l1 /\ ~ In j l2.
Proof.
  intros H. destruct (in_split j (seq 0 n)) as (l1 & l2 & E). { apply in_seq. lia. }
  exists l1, l2. split; auto. pose proof (seq_NoDup n 0) as Hd. rewrite E in Hd. apply NoDup_remove_2 in Hd.
  split; intros Hx; apply Hd; apply in_or_app; auto.
Qed.

Lemma nth_upd_same (wi : list nat) j x : j < length wi -> nth j (upd wi j x) 0 = x.
Proof. revert j. induction wi as [|y wi IH]; intros [|j] H; simpl in *; auto; try lia. apply IH. lia. Qed.

(** A scaled component. *)
Definition fscale (x : float) (g : fcm) : fcm := ((x * fst g)%float, snd g).
Lemma scale_upto x (g : fcm) : upto 2 x -> upto 1 (fst g) ->
  upto 2 (fst (fscale x g)) /\ v (fscale x g) = rnd (FloatBase.val x * v g).
Proof.
  intros [Fx Vx] [Fg Vg]. simpl. assert (H : (0 <= FloatBase.val x * v g <= 2)%R) by (split; nra).
  destruct (f_mul x (fst g) 1) as [F V]; auto; try lia. { rewrite Rabs_pos_eq by lra. simpl. lra. }
  split; auto. split; auto. rewrite V. split; [apply rnd_pos; lra|].
  replace 2%R with (bpow radix2 1) by (simpl; lra).
  pose proof (rnd_abs (FloatBase.val x * v g) 1 ltac:(lia)) as A. rewrite Rabs_pos_eq in A by lra.
  specialize (A ltac:(simpl; lra)). apply Rabs_le_inv in A. lra.
Qed.

Section Join.
Variable cw_lim : float.
Variable w : list float.
Variable ps : list (list fcm).
Hypothesis Hlen : length ps = length w.
Hypothesis Hw : forall x, In x w -> upto 2 x.
Hypothesis Hs : forall p, In p ps -> fdecreasing p.
Hypothesis Hn : forall p g, In p ps -> In g p -> upto 1 (fst g).

Definition scale (j : nat) (g : fcm) : fcm := fscale (nth j w 0%float) g.
Definition pj (j : nat) : list fcm := nth j ps [].
Lemma wj_upto j : upto 2 (nth j w 0%float).
Proof.
  destruct (Nat.lt_ge_cases j (length w)) as [H|H].
  - apply Hw. apply nth_In. auto.
  - rewrite nth_overflow by auto. split; [apply fin_SF; reflexivity|]. rewrite val_SF. simpl. lra.
Qed.
Lemma pj_in j g : In g (pj j) -> upto 1 (fst g).
Proof.
  unfold pj. destruct (Nat.lt_ge_cases j (length ps)) as [H|H].
  - apply Hn. apply nth_In. auto.
  - rewrite nth_overflow by auto. intros [].
Qed.
Lemma scale_le j g h : In g (pj j) -> In h (pj j) -> (v h <= v g)%R -> (v (scale j h) <= v (scale j g))%R.
Proof.
  intros Hg Hh L. unfold scale. destruct (scale_upto _ _ (wj_upto j) (pj_in _ _ Hg)) as [_ ->].
  destruct (scale_upto _ _ (wj_upto j) (pj_in _ _ Hh)) as [_ ->]. apply rnd_le, Rmult_le_compat_l; auto. apply wj_upto.
Qed.
Lemma pj_decreasing j : fdecreasing (pj j).
Proof.
  unfold pj. destruct (Nat.lt_ge_cases j (length ps)) as [H|H].
  - apply Hs. apply nth_In. auto.
  - rewrite nth_overflow by auto. constructor.
Qed.
Definition heads (wi : list nat) (js : list nat) : list (float * nat) :=
  flat_map (fun j => match nth_error (pj j) (nth j wi 0) with Some g => [(fst (scale j g), j)] | None => [] end) js.
Definition remain (wi : list nat) (js : list nat) : list fcm :=
  flat_map (fun j => map (scale j) (skipn (nth j wi 0) (pj j))) js.

Lemma heads_other wi j x js : ~ In j js -> heads (upd wi j x) js = heads wi js.
Proof.
  intros H. induction js as [|i js IH]; auto. unfold heads in *. cbn [flat_map]. rewrite IH by (simpl in H; tauto).
  rewrite GMProofs.nth_upd_other; auto. simpl in H. intuition.
Qed.
Lemma remain_other wi j x js : ~ In j js -> remain (upd wi j x) js = remain wi js.
Proof.
  intros H. induction js as [|i js IH]; auto. unfold remain in *. cbn [flat_map]. rewrite IH by (simpl in H; tauto).
  rewrite GMProofs.nth_upd_other; auto. simpl in H. intuition.
Qed.


Lemma heads_app wi a b : heads wi (a ++ b) = heads wi a ++ heads wi b.
Proof. apply flat_map_app. Qed.
Lemma remain_app wi a b : remain wi (a ++ b) = remain wi a ++ remain wi b.
Proof. apply flat_map_app. Qed.

Lemma heads_in wi js x j : In (x, j) (heads wi js) -> In j js /\ exists g, nth_error (pj j) (nth j wi 0) = Some g /\ x = fst (scale j g).
Proof.
  unfold heads. rewrite in_flat_map. intros (i & Hi & Hx). destruct (nth_error (pj i) (nth i wi 0)) as [g|] eqn:E; [|destruct Hx].
  destruct Hx as [Hx|[]]. inversion Hx; subst. split; auto. exists g. auto.
Qed.


Lemma heads_fin wi js y : In y (heads wi js) -> fin (fst y).
Proof.
  destruct y as (x, j). intros H. apply heads_in in H. destruct H as (_ & g & Eg & ->).
  apply (scale_upto (nth j w 0%float) g (wj_upto j)). eapply pj_in, nth_error_In; eauto.
Qed.

(** Every remaining component is no heavier than the greatest head. *)
Lemma remain_le wi js m : (forall y, In y (heads wi js) -> (v y <= m)%R) ->
  forall y, In y (remain wi js) -> (v y <= m)%R.
Proof.
  intros H y Hy. unfold remain in Hy. apply in_flat_map in Hy. destruct Hy as (j & Hj & Hy).
  destruct (nth_error (pj j) (nth j wi 0)) as [g|] eqn:E.
  - rewrite (GMProofs.skipn_nth _ _ _ E) in Hy. assert (Hg : (v (scale j g) <= m)%R).
    { apply (H (fst (scale j g), j)). unfold heads. apply in_flat_map. exists j. split; auto. rewrite E. simpl. auto. }
    apply in_map_iff in Hy. destruct Hy as (h & <- & Hh). destruct Hh as [->|Hh]; auto.
    enough (v h <= v g)%R.
    { apply Rle_trans with (2 := Hg). apply scale_le; auto; [eapply nth_error_In; eauto|].
      rewrite <- (firstn_skipn (S (nth j wi 0)) (pj j)). apply in_or_app. auto. }
    pose proof (pj_decreasing j) as Hd. rewrite <- (firstn_skipn (nth j wi 0) (pj j)) in Hd.
    apply fdecreasing_app_inv in Hd. destruct Hd as (_ & Hd & _). rewrite (GMProofs.skipn_nth _ _ _ E) in Hd.
    inversion Hd; subst. rewrite Forall_forall in H3. auto.
  - apply nth_error_None in E. rewrite skipn_all2 in Hy by auto. destruct Hy.
Qed.

Lemma remain_nil wi js : heads wi js = [] -> remain wi js = [].
Proof.
  unfold heads, remain. induction js as [|j js IH]; auto. cbn [flat_map].
  destruct (nth_error (pj j) (nth j wi 0)) as [g|] eqn:E; [discriminate|]. intros H. rewrite IH by auto.
  apply nth_error_None in E. rewrite skipn_all2 by auto. reflexivity.
Qed.

Definition kept_well (s0 : float) (c : list fcm) : Prop :=
  forall a x b, c = a ++ x :: b -> PrimFloat.ltb (fst x / (fold_left PrimFloat.add (map fst a) s0 + fst x)) cw_lim = false.

Lemma join_loop_ok k : forall wi q s0 c, length wi = length w ->
  Permutation q (heads wi (seq 0 (length w))) ->
  exists c' rest, fjoin_loop cw_lim k w ps wi q s0 c = Ok (c ++ c') /\
    Permutation (c' ++ rest) (remain wi (seq 0 (length w))) /\ fheaviest c' rest /\ length c' <= k /\
    (rest = [] \/ length c' = k \/
     exists y, In y rest /\ (forall z, In z rest -> (v z <= v y)%R) /\ PrimFloat.ltb (fst y / (fold_left PrimFloat.add (map fst c') s0 + fst y)) cw_lim = true) /\
    kept_well s0 c'.
Proof.
  induction k as [|k IH]; intros wi q s0 c Hwi Hq.
  - exists [], (remain wi (seq 0 (length w))). simpl. rewrite app_nil_r. split; auto. split; auto.
    split; [split; [constructor|intros x y []]|]. split; auto. split; auto. intros [|? ?] x b E; discriminate.
  - cbn [fjoin_loop]. pose proof (pop_top_spec q (fun y Hy => heads_fin wi _ y (Permutation_in y Hq Hy))) as Ht. destruct (fpop_top q) as [((nw, j), q')|].
    2:{ subst q. apply Permutation_nil in Hq. exists [], []. rewrite app_nil_r, (remain_nil _ _ Hq). split; auto. split; auto.
        split; [split; [constructor|intros x y []]|]. split; [simpl; lia|]. split; auto. intros [|? ?] x b E; discriminate. }
    destruct Ht as (Hp & Hm). cbn [fst] in Hm.
    assert (Hm' : forall y, In y (remain wi (seq 0 (length w))) -> (v y <= FloatBase.val nw)%R).
    { apply remain_le. intros y Hy. apply Hm. eapply Permutation_in; [symmetry; exact Hq|auto]. }
    assert (Hin : In (nw, j) (heads wi (seq 0 (length w)))).
    { eapply Permutation_in; [exact Hq|]. eapply Permutation_in; [symmetry; exact Hp|simpl; auto]. }
    apply heads_in in Hin. destruct Hin as (Hj & g & Eg & Ew). apply in_seq in Hj.
    destruct (split_seq j (length w)) as (l1 & l2 & El & N1 & N2); [lia|].
    set (i := nth j wi 0) in *.
    assert (Hrem : Permutation (remain wi (seq 0 (length w))) (scale j g :: remain (upd wi j (S i)) (seq 0 (length w)))).
    { rewrite El, !remain_app, (remain_other wi j (S i) l1 N1).
      change (remain wi (j :: l2)) with (map (scale j) (skipn i (pj j)) ++ remain wi l2).
      change (remain (upd wi j (S i)) (j :: l2)) with (map (scale j) (skipn (nth j (upd wi j (S i)) 0) (pj j)) ++ remain (upd wi j (S i)) l2).
      rewrite (remain_other wi j (S i) l2 N2). rewrite nth_upd_same by lia. rewrite (GMProofs.skipn_nth _ _ _ Eg). cbn [map app].
      symmetry. apply Permutation_middle. }
    destruct (PrimFloat.ltb (nw / (s0 + nw)) cw_lim) eqn:Eb.
    + exists [], (remain wi (seq 0 (length w))). rewrite app_nil_r. split; auto. split; auto.
      split; [split; [constructor|intros x y []]|]. split; [simpl; lia|]. split; [|intros [|? ?] x b E; discriminate].
      right. right. exists (scale j g). split. { eapply Permutation_in; [symmetry; exact Hrem|simpl; auto]. }
      rewrite <- Ew. split; auto.
    + assert (Ep : get ps j = Ok (pj j)).
      { unfold get, pj. rewrite (nth_error_nth' ps []) by lia. reflexivity. }
      assert (Ei : get wi j = Ok i) by (unfold get, i; rewrite (nth_error_nth' wi 0) by lia; reflexivity).
      rewrite Ep. cbn [bind]. rewrite Ei. cbn [bind].
      assert (Egg : get (pj j) i = Ok g) by (unfold get; rewrite Eg; reflexivity). rewrite Egg. cbn [bind].
      unfold set. rewrite (proj2 (Nat.ltb_lt j (length wi))) by lia. cbn [bind].
      assert (Hheads : forall h, (nth_error (pj j) (S i) = h) ->
        Permutation (match h with Some g' => [(fst (scale j g'), j)] | None => [] end ++ q') (heads (upd wi j (S i)) (seq 0 (length w)))).
      { intros h Eh.
        assert (X : Permutation ((nw, j) :: q') (heads wi l1 ++ [(nw, j)] ++ heads wi l2)).
        { rewrite <- Hp, Hq, El, heads_app. change (heads wi (j :: l2)) with
            (match nth_error (pj j) i with Some g => [(fst (scale j g), j)] | None => [] end ++ heads wi l2).
          rewrite Eg, <- Ew. reflexivity. }
        assert (Y : Permutation q' (heads wi l1 ++ heads wi l2)).
        { apply Permutation_cons_inv with (a := (nw, j)). rewrite X. simpl. symmetry. apply Permutation_middle. }
        rewrite El, heads_app. change (heads (upd wi j (S i)) (j :: l2)) with
          (match nth_error (pj j) (nth j (upd wi j (S i)) 0) with Some g => [(fst (scale j g), j)] | None => [] end ++ heads (upd wi j (S i)) l2).
        rewrite (heads_other wi j (S i) l1 N1), (heads_other wi j (S i) l2 N2). rewrite nth_upd_same by lia. rewrite Eh, Y.
        rewrite !app_assoc. apply Permutation_app_tail. apply Permutation_app_comm. }
      assert (Hgo : forall q'', Permutation q'' (heads (upd wi j (S i)) (seq 0 (length w))) ->
        exists c' rest, fjoin_loop cw_lim k w ps (upd wi j (S i)) q'' (s0 + nw)%float (c ++ [(nw, snd g)]) = Ok (c ++ c') /\
    Permutation (c' ++ rest) (remain wi (seq 0 (length w))) /\ fheaviest c' rest /\ length c' <= S k /\
    (rest = [] \/ length c' = S k \/
     exists y, In y rest /\ (forall z, In z rest -> (v z <= v y)%R) /\ PrimFloat.ltb (fst y / (fold_left PrimFloat.add (map fst c') s0 + fst y)) cw_lim = true) /\
    kept_well s0 c').
      { intros q'' Hq''. destruct (IH (upd wi j (S i)) q'' (s0 + nw)%float (c ++ [(nw, snd g)])) as (c' & rest & E & Hpm & (Hd & Hh) & Hl & Hr & Hk).
        { rewrite upd_length. auto. } { auto. }
        exists (scale j g :: c'), rest. split. { rewrite E, <- app_assoc. cbn [app]. rewrite Ew. reflexivity. }
        assert (Hle : forall y, In y (c' ++ rest) -> (v y <= v (scale j g))%R).
        { intros y Hy. rewrite <- Ew. apply Hm'. eapply Permutation_in; [symmetry; exact Hrem|]. right. eapply Permutation_in; eauto. }
        split. { rewrite Hrem, <- Hpm. reflexivity. }
        split. { split.
          - constructor; auto. apply Forall_forall. intros y Hy. apply Hle. apply in_or_app; auto.
          - intros x y [<-|Hx] Hy; auto. apply Hle. apply in_or_app; auto. }
        split; [simpl; lia|]. split.
        - destruct Hr as [Hr|[Hr|(y & Hy & Hz & Hb)]]; auto. { right. left. simpl. lia. }
          right. right. exists y. split; auto. split; auto. cbn [map fold_left]. rewrite <- Ew. exact Hb.
        - intros a x b Eab. destruct a as [|a0 a]; cbn [app] in Eab; injection Eab as E1 E2; rewrite <- E1.
          + cbn [map fold_left]. rewrite <- Ew. auto.
          + cbn [map fold_left]. rewrite <- Ew. eapply Hk. eauto. }
      destruct (S i <? length (pj j)) eqn:El'.
      * apply Nat.ltb_lt in El'. destruct (nth_error (pj j) (S i)) as [g'|] eqn:Eg'; [|apply nth_error_None in Eg'; lia].
        assert (Eg2 : get (pj j) (S i) = Ok g') by (unfold get; rewrite Eg'; reflexivity). rewrite Eg2. cbn [bind].
        assert (Ewj : get w j = Ok (nth j w 0%float)) by (unfold get; rewrite (nth_error_nth' w 0%float) by lia; reflexivity).
        rewrite Ewj. cbn [bind]. apply Hgo. apply (Hheads (Some g') eq_refl).
      * apply Nat.ltb_ge in El'. apply Hgo. apply (Hheads None). apply nth_error_None. lia.
Qed.
End Join.

Definition fscaled (w : list float) (ps : list (list fcm)) : list fcm :=
  flat_map (fun wp => map (fscale (fst wp)) (snd wp)) (combine w ps).

Lemma combine_seq (w : list float) (ps : list (list fcm)) : length ps = length w ->
  combine w ps = map (fun j => (nth j w 0%float, nth j ps [])) (seq 0 (length w)).
Proof.
  revert ps. induction w as [|x w IH]; intros [|p ps] H; simpl in *; auto; try discriminate.
  f_equal. rewrite IH by auto. rewrite <- seq_shift, map_map. reflexivity.
Qed.



Lemma join_start_heads w ps : length ps = length w -> fjoin_start w ps = heads w ps (repeat 0 (length w)) (seq 0 (length w)).
Proof.
  intros H. unfold fjoin_start, heads. rewrite (combine_seq w ps H), GMProofs.combine_map_self, GMProofs.flat_map_map.
  apply flat_map_ext. intros j. cbn [fst snd]. rewrite GMProofs.nth_repeat0. unfold pj, scale, fscale. destruct (nth j ps []); reflexivity.
Qed.
Lemma scaled_remain w ps : length ps = length w -> fscaled w ps = remain w ps (repeat 0 (length w)) (seq 0 (length w)).
Proof.
  intros H. unfold fscaled, remain. rewrite (combine_seq w ps H), GMProofs.flat_map_map. apply flat_map_ext. intros j.
  rewrite GMProofs.nth_repeat0. reflexivity.
Qed.


Lemma fscaled_sorted sortf w (ps : list (list fcm)) : sorts sortf -> (forall p g, In p ps -> In g p -> upto 1 (fst g)) ->
  Permutation (fscaled w (map sortf ps)) (fscaled w ps).
Proof.
  intros Hs. revert ps. induction w as [|x w IH]; intros [|p ps] Hn; simpl; auto. unfold fscaled in *. cbn [combine flat_map fst snd].
  apply Permutation_app; [|apply IH; intros; eapply Hn; [right; eauto|eauto]]. apply Permutation_map. symmetry. apply Hs.
  intros g Hg. apply (Hn p g); simpl; auto.
Qed.

Lemma in_firstn {A} (x : A) n l : In x (firstn n l) -> In x l.
Proof. intros H. rewrite <- (firstn_skipn n l). apply in_or_app; auto. Qed.

Lemma fjoin_raw_ok sortf cw_lim w (pdfs : list (list fcm)) : sorts sortf -> length w <= length pdfs ->
  mixtures_ok w pdfs ->
  exists c rest, fjoin_raw sortf cw_lim w pdfs = Ok c /\
    Permutation (c ++ rest) (fscaled w pdfs) /\ fheaviest c rest /\ length c <= MAX_COMPONENTS /\
    (rest = [] \/ length c = MAX_COMPONENTS \/
     exists y, In y rest /\ (forall z, In z rest -> (v z <= v y)%R) /\ PrimFloat.ltb (fst y / (fwsum (map fst c) + fst y)) cw_lim = true) /\
    kept_well cw_lim 0%float c.
Proof.
  intros Hs Hl [Hw Hn]. unfold fjoin_raw. rewrite (proj2 (Nat.ltb_ge _ _)) by auto.
  assert (Hn' : forall p g, In p (firstn (length w) pdfs) -> In g p -> upto 1 (fst g)).
  { intros p g Hp. apply Hn. eapply in_firstn; eauto. }
  set (ps := map sortf (firstn (length w) pdfs)).
  assert (Hlen : length ps = length w) by (unfold ps; rewrite map_length, firstn_length; lia).
  assert (Hso : forall p, In p (firstn (length w) pdfs) -> Permutation p (sortf p) /\ fdecreasing (sortf p)).
  { intros p Hp. apply Hs. intros g Hg. apply (Hn' p g); auto. }
  destruct (join_loop_ok cw_lim w ps Hlen Hw) with (k := MAX_COMPONENTS) (wi := repeat 0 (length w)) (q := fjoin_start w ps) (s0 := 0%float) (c := @nil fcm)
    as (c & rest & E & Hp & Hh & Hk & Hr & Hkw).
  { intros p Hp. unfold ps in Hp. apply in_map_iff in Hp. destruct Hp as (p' & <- & Hp). apply Hso; auto. }
  { intros p g Hp Hg. unfold ps in Hp. apply in_map_iff in Hp. destruct Hp as (p' & <- & Hp). apply (Hn' p'); auto.
    eapply Permutation_in; [symmetry; apply Hso; auto|auto]. }
  { apply repeat_length. }
  { rewrite join_start_heads; auto. }
  exists c, rest. split; [exact E|]. split.
  { rewrite Hp, <- scaled_remain by auto. unfold ps. rewrite fscaled_sorted by auto. unfold fscaled. rewrite GMProofs.combine_firstn_l. reflexivity. }
  split; auto.
Qed.
End Order.
