(** Proofs about splitting a node. *)
From Coq Require Import List Arith Bool Lia Permutation.
Import ListNotations.
From Verif Require Import Res Scalar RTree RTreeSpec.

Section Split.
Context {T D : Type} (O : Num T).
Variable vol : rect T -> T.
Variable ok : T -> Prop.
Notation le := (le O).
Hypothesis lt_asym : forall x y, ok x -> ok y -> nlt O x y = true -> nlt O y x = false.
Hypothesis le_trans : forall x y z, ok x -> ok y -> ok z -> le x y -> le y z -> le x z.

Notation good := (good O ok).

(** Differences of volume growth are numbers. *)
Hypothesis diff_ok : forall b c0 c1, good b -> good c0 -> good c1 ->
  let g0 := nsub O (vol (combine_rect O b c0)) (vol c0) in
  let g1 := nsub O (vol (combine_rect O b c1)) (vol c1) in
  let d := nsub O g1 g0 in
  if nle O (n0 O) d then nlt O (nsub O (n0 O) (n1 O)) d = true
  else nlt O (nsub O (n0 O) (n1 O)) (nsub O (n0 O) d) = true.
(** The waste of a pair exceeds the initial value. *)
Hypothesis seed_ok : forall a b c, good a -> good b -> good c -> contains le c a -> contains le c b ->
  nlt O (nsub O (nsub O (n0 O) (vol c)) (n1 O))
        (nsub O (nsub O (vol (combine_rect O a b)) (vol a)) (vol b)) = true.

(** ** Order *)
Lemma le_refl x : ok x -> le x x.
Proof. intros H. unfold RTreeSpec.le. destruct (nlt O x x) eqn:E; auto. pose proof (lt_asym x x H H E). congruence. Qed.

Lemma fmin_l x y : ok x -> ok y -> le (fmin O x y) x.
Proof. intros Hx Hy. unfold fmin. destruct (nlt O y x) eqn:E; [apply lt_asym; auto|apply le_refl; auto]. Qed.
Lemma fmin_r x y : ok x -> ok y -> le (fmin O x y) y.
Proof. intros Hx Hy. unfold fmin. destruct (nlt O y x) eqn:E; [apply le_refl; auto|exact E]. Qed.
Lemma fmax_l x y : ok x -> ok y -> le x (fmax O x y).
Proof. intros Hx Hy. unfold fmax. destruct (nlt O x y) eqn:E; [apply lt_asym; auto|apply le_refl; auto]. Qed.
Lemma fmax_r x y : ok x -> ok y -> le y (fmax O x y).
Proof. intros Hx Hy. unfold fmax. destruct (nlt O x y) eqn:E; [apply le_refl; auto|exact E]. Qed.
Lemma fmin_or x y : fmin O x y = x \/ fmin O x y = y.
Proof. unfold fmin. destruct (nlt O y x); auto. Qed.
Lemma fmax_or x y : fmax O x y = x \/ fmax O x y = y.
Proof. unfold fmax. destruct (nlt O x y); auto. Qed.
Lemma fmin_ok x y : ok x -> ok y -> ok (fmin O x y).
Proof. intros; destruct (fmin_or x y) as [-> | ->]; auto. Qed.
Lemma fmax_ok x y : ok x -> ok y -> ok (fmax O x y).
Proof. intros; destruct (fmax_or x y) as [-> | ->]; auto. Qed.

Lemma combine_good a b : good a -> good b -> good (combine_rect O a b).
Proof.
  intros ((A1 & A2 & A3 & A4) & A5 & A6) ((B1 & B2 & B3 & B4) & B5 & B6). unfold RTreeSpec.good, fine, combine_rect. simpl.
  pose proof (fmin_ok _ _ A1 B1). pose proof (fmin_ok _ _ A2 B2).
  pose proof (fmax_ok _ _ A3 B3). pose proof (fmax_ok _ _ A4 B4).
  repeat split; auto.
  - apply le_trans with (min0 a); auto; [apply fmin_l; auto|]. apply le_trans with (max0 a); auto. apply fmax_l; auto.
  - apply le_trans with (min1 a); auto; [apply fmin_l; auto|]. apply le_trans with (max1 a); auto. apply fmax_l; auto.
Qed.
Lemma combine_l a b : good a -> good b -> contains le (combine_rect O a b) a.
Proof.
  intros ((A1 & A2 & A3 & A4) & _) ((B1 & B2 & B3 & B4) & _). unfold contains, combine_rect. simpl.
  repeat split; auto using fmin_l, fmax_l.
Qed.
Lemma combine_r a b : good a -> good b -> contains le (combine_rect O a b) b.
Proof.
  intros ((A1 & A2 & A3 & A4) & _) ((B1 & B2 & B3 & B4) & _). unfold contains, combine_rect. simpl.
  repeat split; auto using fmin_r, fmax_r.
Qed.
Lemma contains_refl a : good a -> contains le a a.
Proof. intros ((A1 & A2 & A3 & A4) & _). repeat split; apply le_refl; auto. Qed.
Lemma contains_trans a b c : good a -> good b -> good c -> contains le a b -> contains le b c -> contains le a c.
Proof.
  intros ((A1 & A2 & A3 & A4) & _) ((B1 & B2 & B3 & B4) & _) ((C1 & C2 & C3 & C4) & _) (H1 & H2 & H3 & H4) (K1 & K2 & K3 & K4).
  repeat split.
  - apply le_trans with (min0 b); auto.
  - apply le_trans with (min1 b); auto.
  - apply le_trans with (max0 b); auto.
  - apply le_trans with (max1 b); auto.
Qed.

(** ** Cover of a list of branches *)
Definition all_good (bs : list (branch T D)) : Prop := forall b, In b bs -> good (fst b).

Lemma cover_fold bs : forall r, good r -> all_good bs ->
  let c := fold_left (fun r (b : branch T D) => combine_rect O r (fst b)) bs r in
  good c /\ contains le c r /\ forall b, In b bs -> contains le c (fst b).
Proof.
  induction bs as [|b bs IH]; intros r Hr Hg; cbn [fold_left].
  - split; auto. split; [apply contains_refl; auto|]. intros b [].
  - assert (Hb : good (fst b)) by (apply Hg; simpl; auto).
    assert (Hc : good (combine_rect O r (fst b))) by (apply combine_good; auto).
    destruct (IH _ Hc) as (H1 & H2 & H3); [intros x Hx; apply Hg; simpl; auto|].
    cbv zeta in *. split; auto. split.
    + eapply contains_trans; [| | |exact H2|apply combine_l]; auto.
    + intros x [<-|Hx]; auto. eapply contains_trans; [| | |exact H2|apply combine_r]; auto.
Qed.

Lemma cover_good bs : bs <> [] -> all_good bs ->
  good (node_cover O bs) /\ forall b, In b bs -> contains le (node_cover O bs) (fst b).
Proof.
  destruct bs as [|b bs]; [congruence|]. intros _ Hg. unfold node_cover.
  destruct (cover_fold bs (fst b)) as (H1 & H2 & H3); [apply Hg; simpl; auto|intros x Hx; apply Hg; simpl; auto|].
  split; auto. intros x [<-|Hx]; auto.
Qed.

(** ** Seeds *)
Lemma pick_seeds_spec (buf : list (branch T D)) : 2 <= length buf -> all_good buf ->
  wp False (pick_seeds O vol buf (vol (node_cover O buf))) (fun s => fst s < snd s < length buf).
Proof.
  intros Hn Hg. unfold pick_seeds. set (n := length buf) in *.
  set (init := (nsub O (nsub O (n0 O) (vol (node_cover O buf))) (n1 O), @None (nat * nat))).
  set (found := fun st : T * option (nat * nat) => exists i j, snd st = Some (i, j) /\ i < j < n).
  assert (d0 : branch T D) by (destruct buf; [simpl in *; lia|assumption]).
  apply wp_bind.
  eapply wp_conseq.
  { apply (wp_for False (n - 1) 0 _ (fun ia st => (ia = 0 /\ st = init) \/ found st)).
    - left. auto.
    - intros ia st Hia Hst. eapply wp_conseq.
      { apply (wp_for False (n - S ia) (S ia) _ (fun ib st => (ia = 0 /\ ib = S ia /\ st = init) \/ found st)).
        - destruct Hst as [[-> ->]|Hf]; auto.
        - intros ib s Hib Hs. assert (Hla : length (map (fun b : branch T D => vol (fst b)) buf) = n) by apply map_length.
          rewrite (get_ok buf ia d0) by (unfold n in *; lia). cbn [bind].
          rewrite (get_ok buf ib d0) by (unfold n in *; lia). cbn [bind].
          rewrite (get_ok _ ia (vol (fst d0))) by (rewrite map_length; change (ia < n); lia). cbn [bind].
          rewrite (get_ok _ ib (vol (fst d0))) by (rewrite map_length; change (ib < n); lia). cbn [bind].
          rewrite !(map_nth (fun b : branch T D => vol (fst b))).
          destruct s as [worst seeds]. destruct Hs as [(-> & -> & Hs)|Hs].
          + inversion Hs; subst worst seeds. rewrite seed_ok.
            * apply wp_ret. right. exists 0, 1. split; [reflexivity|lia].
            * apply Hg, nth_In. unfold n in *; lia.
            * apply Hg, nth_In. unfold n in *; lia.
            * apply cover_good; auto. destruct buf; [simpl in *; lia|discriminate].
            * apply cover_good; auto; [destruct buf; [simpl in *; lia|discriminate]|]. apply nth_In. unfold n in *; lia.
            * apply cover_good; auto; [destruct buf; [simpl in *; lia|discriminate]|]. apply nth_In. unfold n in *; lia.
          + destruct (nlt O worst _); apply wp_ret; right; [|exact Hs]. exists ia, ib. split; [reflexivity|lia]. }
      intros s [(-> & Hk & _)|Hf]; [lia|right; auto]. }
  intros st [(Hk & _)|(i & j & E & Hij)]; [lia|]. rewrite E. apply wp_ret. exact Hij.
Qed.

(** ** Partition *)
Definition cnt (g : bool) (part : list (option bool)) : nat :=
  length (filter (fun p => match p with Some h => Bool.eqb g h | None => false end) part).
Definition free (part : list (option bool)) : nat :=
  length (filter (fun p : option bool => match p with Some _ => false | None => true end) part).

Lemma cnt_total part : cnt false part + cnt true part + free part = length part.
Proof. unfold cnt, free. induction part as [|[[|]|] part IH]; simpl in *; lia. Qed.

Lemma cnt_upd g h part i : i < length part -> nth i part (Some true) = None ->
  cnt h (upd part i (Some g)) = (if Bool.eqb h g then 1 else 0) + cnt h part.
Proof.
  unfold cnt. revert i. induction part as [|p part IH]; intros i Hi Hn; [simpl in Hi; lia|].
  destruct i as [|i]; cbn [nth] in Hn.
  - subst p. simpl. destruct (Bool.eqb h g); reflexivity.
  - simpl in Hi. cbn [upd filter]. specialize (IH i ltac:(lia) Hn).
    destruct p as [q|]; [|exact IH]. destruct (Bool.eqb h q); [|exact IH]. cbn [length]. rewrite IH. lia.
Qed.

Lemma cnt_repeat g n : cnt g (repeat None n) = 0.
Proof. unfold cnt. induction n; simpl; auto. Qed.

Lemma free_index part : 0 < free part -> exists i, i < length part /\ nth i part (Some true) = None.
Proof.
  unfold free. induction part as [|[b|] part IH]; simpl; intros H; [lia| |].
  - destruct IH as (i & H1 & H2); auto. exists (S i). simpl. split; [lia|auto].
  - exists 0. split; [lia|auto].
Qed.
Lemma free_zero part i : free part = 0 -> i < length part -> nth i part (Some true) <> None.
Proof.
  unfold free. revert i. induction part as [|[b|] part IH]; simpl; intros i H Hi; try lia.
  destruct i as [|i]; [discriminate|]. apply IH; auto. lia.
Qed.

(** The bookkeeping is consistent. *)
Record pv_ok (buf : list (branch T D)) (pv : pvars (T := T)) : Prop := {
  pk_len : length (p_part pv) = length buf;
  pk_cnt : forall g, p_count pv g = cnt g (p_part pv);
  pk_cov : forall g, 0 < p_count pv g -> exists c, p_cover pv g = Some c /\ good c /\ p_area pv g = vol c }.

Lemma classify_spec buf i g pv : all_good buf -> pv_ok buf pv -> i < length buf ->
  nth i (p_part pv) (Some true) = None ->
  wp False (classify O vol buf i g pv) (fun pv' => pv_ok buf pv' /\
     (forall h, p_count pv' h = (if Bool.eqb h g then 1 else 0) + p_count pv h) /\
     p_part pv' = upd (p_part pv) i (Some g)).
Proof.
  intros Hg Hpv Hi Hn. unfold classify.
  assert (Hlen : i < length (p_part pv)) by (rewrite (pk_len _ _ Hpv); auto).
  rewrite set_ok by auto. cbn [bind].
  assert (d0 : branch T D) by (destruct buf; [simpl in *; lia|assumption]).
  rewrite (get_ok _ _ d0) by auto. cbn [bind]. set (b := nth i buf d0).
  assert (Hb : good (fst b)) by (apply Hg, nth_In; auto).
  assert (Hcov : exists c, (if p_count pv g =? 0 then Ok (fst b)
     else match p_cover pv g with None => UB | Some c => Ok (combine_rect O (fst b) c) end) = Ok c /\ good c).
  { destruct (Nat.eqb_spec (p_count pv g) 0) as [E|E].
    - eexists; split; [reflexivity|auto].
    - destruct (pk_cov _ _ Hpv g) as (c & -> & Hc & _); [lia|]. eexists; split; [reflexivity|]. apply combine_good; auto. }
  destruct Hcov as (c & -> & Hc). cbn [bind]. apply wp_ret.
  assert (Hcnt : forall h, upd_fun (p_count pv) g (S (p_count pv g)) h = (if Bool.eqb h g then 1 else 0) + p_count pv h).
  { intros h. unfold upd_fun. destruct g, h; simpl; auto. }
  split; [constructor|split].
  - simpl. rewrite upd_length. apply Hpv.
  - intros h. cbn [p_count p_part]. rewrite Hcnt, cnt_upd, (pk_cnt _ _ Hpv) by auto. auto.
  - intros h. cbn [p_count p_part p_cover p_area]. unfold upd_fun. destruct (Bool.eqb g h); intros Hp.
    + exists c. auto.
    + apply Hpv. auto.
  - exact Hcnt.
  - reflexivity.
Qed.

(** A free branch is selected. *)
Lemma best_next_spec buf pv chosen : all_good buf -> pv_ok buf pv ->
  0 < p_count pv false -> 0 < p_count pv true -> 0 < free (p_part pv) ->
  wp False (best_next O vol buf pv chosen) (fun o => exists i g, o = Some (i, g) /\ i < length buf /\ nth i (p_part pv) (Some true) = None).
Proof.
  intros Hg Hpv H0 H1 Hfree. unfold best_next. apply wp_bind.
  assert (d0 : branch T D).
  { destruct buf as [|b0 ?]; [exfalso|exact b0].
    destruct (free_index _ Hfree) as (i & Hi & _). rewrite (pk_len _ _ Hpv) in Hi. simpl in Hi. lia. }
  destruct (pk_cov _ _ Hpv false H0) as (c0 & E0 & Hc0 & A0).
  destruct (pk_cov _ _ Hpv true H1) as (c1 & E1 & Hc1 & A1).
  set (sel := fun (st : T * option (nat * bool)) => exists i g, snd st = Some (i, g) /\ i < length buf /\ nth i (p_part pv) (Some true) = None).
  eapply wp_conseq.
  { apply (wp_for False (length buf) 0 _ (fun k st =>
      (st = (nsub O (n0 O) (n1 O), chosen) /\ forall i, i < k -> nth i (p_part pv) (Some true) <> None) \/ sel st)).
    - left. split; auto. lia.
    - intros k st Hk Hst. destruct st as [biggest ch].
      rewrite (get_ok _ _ (Some true)) by (rewrite (pk_len _ _ Hpv); lia). cbn [bind].
      destruct (nth k (p_part pv) (Some true)) as [t|] eqn:Et.
      + apply wp_ret. destruct Hst as [[E Hno]|Hs]; [|right; auto]. left. split; auto.
        intros i Hi. destruct (Nat.eq_dec i k) as [->|]; [congruence|apply Hno; lia].
      + rewrite (get_ok _ _ d0) by lia. cbn [bind]. rewrite E0, E1, A0, A1.
        set (b := nth k buf d0). assert (Hb : good (fst b)) by (apply Hg, nth_In; lia).
        pose proof (diff_ok (fst b) c0 c1 Hb Hc0 Hc1) as Hd. cbv zeta in Hd.
        set (d := nsub O (nsub O (vol (combine_rect O (fst b) c1)) (vol c1)) (nsub O (vol (combine_rect O (fst b) c0)) (vol c0))) in *.
        cbv zeta.
        assert (Hsel : forall x g, sel (x, Some (k, g))).
        { intros x g. exists k, g. split; auto. split; [lia|auto]. }
        destruct (if nle O (n0 O) d then (false, d) else (true, nsub O (n0 O) d)) as [grp d'] eqn:Eg.
        assert (Hd' : nlt O (nsub O (n0 O) (n1 O)) d' = true).
        { destruct (nle O (n0 O) d); inversion Eg; subst; auto. }
        destruct Hst as [[E Hno]|Hs].
        * inversion E; subst biggest ch. rewrite Hd'. apply wp_ret. right. apply Hsel.
        * destruct (nlt O biggest d'); [apply wp_ret; right; apply Hsel|].
          destruct (neq O d' biggest); [|apply wp_ret; right; auto].
          pose proof Hs as Hs'. destruct Hs' as (i & g & Ei & _). simpl in Ei. subst ch.
          destruct (p_count pv grp <? p_count pv g); apply wp_ret; right; auto. }
  intros st [[_ Hno]|Hs]; [|exact Hs]. exfalso.
  destruct (free_index _ Hfree) as (i & Hi & Hni). apply (Hno i); auto. rewrite <- (pk_len _ _ Hpv). lia.
Qed.

Lemma partition_loop_spec buf : all_good buf -> length buf = 9 -> forall rounds pv chosen,
  pv_ok buf pv -> 0 < p_count pv false <= 5 -> 0 < p_count pv true <= 5 -> free (p_part pv) < rounds ->
  wp False (partition_loop O vol rounds buf pv chosen) (fun pv' => pv_ok buf pv' /\
     p_count pv' false <= 5 /\ p_count pv' true <= 5 /\
     (free (p_part pv') = 0 \/ p_count pv' false = 5 \/ (p_count pv' true = 5))).
Proof.
  intros Hg Hlen. induction rounds as [|rounds IH]; intros pv chosen Hpv H0 H1 Hr; [lia|].
  cbn [partition_loop]. pose proof (cnt_total (p_part pv)) as Htot.
  rewrite <- !(pk_cnt _ _ Hpv), (pk_len _ _ Hpv), Hlen in Htot. rewrite Hlen. change (9 - MINNODES) with 5.
  destruct (Nat.ltb_spec (p_count pv false + p_count pv true) 9) as [Ha|Ha];
    [|apply wp_ret; split; auto; split; [lia|split; [lia|left; lia]]].
  destruct (Nat.ltb_spec (p_count pv false) 5) as [Hb|Hb];
    [|apply wp_ret; split; auto; split; [lia|split; [lia|right; left; lia]]].
  destruct (Nat.ltb_spec (p_count pv true) 5) as [Hc|Hc];
    [|apply wp_ret; split; auto; split; [lia|split; [lia|right; right; lia]]].
  cbn [andb]. apply wp_bind. eapply wp_conseq; [apply best_next_spec; auto; lia|].
  intros o (i & g & -> & Hi & Hn). apply wp_bind. eapply wp_conseq; [apply classify_spec; auto|].
  intros pv' (Hpv' & Hcnt & Hpart). apply IH; auto.
  - rewrite Hcnt. destruct g; simpl; lia.
  - rewrite Hcnt. destruct g; simpl; lia.
  - pose proof (cnt_total (p_part pv')) as Htot'. rewrite <- !(pk_cnt _ _ Hpv'), (pk_len _ _ Hpv'), Hlen in Htot'.
    rewrite !Hcnt in Htot'. destruct g; simpl in Htot'; lia.
Qed.

Lemma choose_partition_spec buf : all_good buf -> length buf = 9 ->
  wp False (choose_partition O vol buf (vol (node_cover O buf))) (fun pv => pv_ok buf pv /\
     free (p_part pv) = 0 /\ 4 <= p_count pv false <= 5 /\ 4 <= p_count pv true <= 5).
Proof.
  intros Hg Hlen. unfold choose_partition. rewrite Hlen. apply wp_bind.
  eapply wp_conseq; [apply pick_seeds_spec; [lia|auto]|]. intros [s0 s1] Hs. cbn [fst snd] in Hs. rewrite Hlen in Hs.
  assert (Hinit : pv_ok buf (init_pv O 9)).
  { constructor; [simpl; lia|intros g; simpl; destruct g; reflexivity|intros g; simpl; lia]. }
  assert (Hrep : forall i, i < 9 -> nth i (repeat (@None bool) 9) (Some true) = None).
  { intros i Hi. rewrite nth_indep with (d' := @None bool) by (rewrite repeat_length; auto). apply nth_repeat. }
  apply wp_bind. eapply wp_conseq; [apply classify_spec; auto; [lia|apply Hrep; lia]|].
  intros pv1 (Hpv1 & Hc1 & Hp1).
  apply wp_bind. eapply wp_conseq.
  { apply (classify_spec buf s1 true pv1); auto; [lia|]. rewrite Hp1. rewrite nth_upd_neq by lia. apply Hrep; lia. }
  intros pv2 (Hpv2 & Hc2 & Hp2).
  assert (Hcf : p_count pv2 false = 1) by (rewrite Hc2, Hc1; reflexivity).
  assert (Hct : p_count pv2 true = 1) by (rewrite Hc2, Hc1; reflexivity).
  apply wp_bind. eapply wp_conseq.
  { apply partition_loop_spec; auto; try lia.
    pose proof (cnt_total (p_part pv2)) as Ht. rewrite (pk_len _ _ Hpv2), Hlen in Ht. lia. }
  intros pv (Hpv & H0 & H1 & Hex).
  pose proof (cnt_total (p_part pv)) as Htot. rewrite <- !(pk_cnt _ _ Hpv), (pk_len _ _ Hpv), Hlen in Htot.
  destruct (Nat.ltb_spec (p_count pv false + p_count pv true) 9) as [Hlt|Hge].
  2:{ apply wp_ret. split; auto. lia. }
  change (9 - MINNODES) with 5.
  set (g := 5 <=? p_count pv false).
  assert (Hother : p_count pv (negb g) = 5).
  { unfold g. destruct (Nat.leb_spec 5 (p_count pv false)); simpl; lia. }
  eapply wp_conseq.
  { apply (wp_for False 9 0 _ (fun k pv' => pv_ok buf pv' /\ p_count pv' (negb g) = 5 /\
       (forall i, i < k -> nth i (p_part pv') (Some true) <> None))).
    - split; auto. split; auto. lia.
    - intros k pv' Hk (Hp & Hn & Hd).
      rewrite (get_ok _ _ (Some true)) by (rewrite (pk_len _ _ Hp); lia). cbn [bind].
      destruct (nth k (p_part pv') (Some true)) as [t|] eqn:Et.
      + apply wp_ret. split; auto. split; auto. intros i Hi.
        destruct (Nat.eq_dec i k) as [->|]; [congruence|apply Hd; lia].
      + eapply wp_conseq; [apply classify_spec; auto; lia|]. intros pv'' (Hp'' & Hc'' & Hpart).
        split; auto. split.
        * rewrite Hc''. destruct g; simpl in *; lia.
        * intros i Hi. rewrite Hpart. destruct (Nat.eq_dec i k) as [->|].
          -- rewrite nth_upd_eq by (rewrite (pk_len _ _ Hp); lia). discriminate.
          -- rewrite nth_upd_neq by lia. apply Hd. lia. }
  intros pv' (Hp & Hn & Hd).
  assert (Hf : free (p_part pv') = 0).
  { destruct (Nat.eq_dec (free (p_part pv')) 0) as [|Hf]; auto. exfalso.
    destruct (free_index (p_part pv')) as (i & Hi & Hni); [lia|]. apply (Hd i); auto.
    rewrite (pk_len _ _ Hp) in Hi. lia. }
  pose proof (cnt_total (p_part pv')) as Ht. rewrite <- !(pk_cnt _ _ Hp), (pk_len _ _ Hp), Hlen in Ht.
  split; auto. split; auto. destruct g; simpl in Hn; lia.
Qed.

(** ** Distribution *)
Lemma firstn_S {A} (l : list A) k d : k < length l -> firstn (S k) l = firstn k l ++ [nth k l d].
Proof.
  revert k. induction l as [|x l IH]; intros k Hk; [simpl in Hk; lia|].
  destruct k as [|k]; auto. simpl in Hk. cbn [firstn nth app]. f_equal. apply IH. lia.
Qed.
Lemma cnt_app g a b : cnt g (a ++ b) = cnt g a + cnt g b.
Proof. unfold cnt. rewrite filter_app, app_length. auto. Qed.
Lemma cnt_firstn g k part : cnt g (firstn k part) <= cnt g part.
Proof. rewrite <- (firstn_skipn k part) at 2. rewrite cnt_app. lia. Qed.

Lemma load_nodes_spec (buf : list (branch T D)) (pv : pvars (T := T)) : length (p_part pv) = length buf -> free (p_part pv) = 0 ->
  cnt false (p_part pv) <= 8 -> cnt true (p_part pv) <= 8 ->
  wp False (load_nodes buf pv) (fun xy => Permutation (fst xy ++ snd xy) buf /\
     length (fst xy) = cnt false (p_part pv) /\ length (snd xy) = cnt true (p_part pv)).
Proof.
  intros Hlen Hf H0 H1. unfold load_nodes. eapply wp_conseq.
  { apply (wp_for False (length buf) 0 _ (fun k (st : list (branch T D) * list (branch T D)) => Permutation (fst st ++ snd st) (firstn k buf) /\
      length (fst st) = cnt false (firstn k (p_part pv)) /\ length (snd st) = cnt true (firstn k (p_part pv)))).
    - simpl. auto.
    - intros k [a b] Hk (Hp & Ha & Hb). cbn [fst snd] in *.
      assert (d0 : branch T D) by (destruct buf; [simpl in *; lia|assumption]).
      rewrite (get_ok _ _ (Some true)) by lia. cbn [bind]. rewrite (get_ok _ _ d0) by lia. cbn [bind].
      rewrite (firstn_S buf k d0), (firstn_S (p_part pv) k (Some true)) by lia. rewrite !cnt_app.
      pose proof (free_zero (p_part pv) k Hf ltac:(lia)) as Hne.
      pose proof (cnt_firstn false (S k) (p_part pv)) as Hm0. pose proof (cnt_firstn true (S k) (p_part pv)) as Hm1.
      rewrite (firstn_S (p_part pv) k (Some true)), cnt_app in Hm0, Hm1 by lia.
      destruct (nth k (p_part pv) (Some true)) as [[|]|] eqn:Ek; [| |congruence].
      + unfold add_plain. change (cnt true [Some true]) with 1 in *. change (cnt false [Some true]) with 0 in *.
        destruct (Nat.ltb_spec (length b) MAXNODES) as [_|Hge]; [|unfold MAXNODES in Hge; lia]. cbn [bind].
        apply wp_ret. cbn [fst snd]. rewrite app_length. simpl. split; [|lia].
        rewrite app_assoc. apply Permutation_app_tail. auto.
      + unfold add_plain. change (cnt true [Some false]) with 0 in *. change (cnt false [Some false]) with 1 in *.
        destruct (Nat.ltb_spec (length a) MAXNODES) as [_|Hge]; [|unfold MAXNODES in Hge; lia]. cbn [bind].
        apply wp_ret. cbn [fst snd]. rewrite app_length. simpl. split; [|lia].
        rewrite <- app_assoc. simpl. rewrite <- Permutation_middle.
        rewrite <- Permutation_cons_append. constructor. auto. }
  intros [a b] (Hp & Ha & Hb). cbn [fst snd Nat.add] in *. rewrite firstn_all in Hp. rewrite <- Hlen, firstn_all in Ha, Hb. auto.
Qed.

Lemma split_spec bs (b : branch T D) : all_good bs -> good (fst b) -> length bs = 8 ->
  wp False (split_node O vol bs b) (fun xy => Permutation (fst xy ++ snd xy) (bs ++ [b]) /\
     4 <= length (fst xy) <= 8 /\ 4 <= length (snd xy) <= 8).
Proof.
  intros Hg Hb Hlen. unfold split_node.
  assert (Hbuf : firstn MAXNODES bs ++ [b] = bs ++ [b]).
  { f_equal. apply firstn_all2. unfold MAXNODES. lia. }
  rewrite Hbuf. set (buf := bs ++ [b]).
  assert (Hgb : all_good buf).
  { intros x Hx. unfold buf in Hx. apply in_app_iff in Hx. destruct Hx as [Hx|[<-|[]]]; auto. }
  assert (Hlb : length buf = 9) by (unfold buf; rewrite app_length; simpl; lia).
  apply wp_bind. eapply wp_conseq; [apply choose_partition_spec; auto|].
  intros pv (Hpv & Hf & H0 & H1). rewrite !(pk_cnt _ _ Hpv) in *.
  eapply wp_conseq; [apply load_nodes_spec; auto; [apply Hpv|lia|lia]|].
  intros [x y] (Hp & Hx & Hy). cbn [fst snd] in *. split; auto. lia.
Qed.

Lemma add_branch_spec bs (b : branch T D) : all_good bs -> good (fst b) -> length bs <= 8 ->
  wp False (add_branch O vol b bs) (fun r =>
     match r with
     | (x, None) => Permutation x (b :: bs) /\ length x <= 8
     | (x, Some y) => Permutation (x ++ y) (b :: bs) /\ 4 <= length x <= 8 /\ 4 <= length y <= 8
     end).
Proof.
  intros Hg Hb Hlen. unfold add_branch. destruct (Nat.ltb_spec (length bs) MAXNODES) as [H|H]; unfold MAXNODES in H.
  - apply wp_ret. split; [|rewrite app_length; simpl; lia]. symmetry. apply Permutation_cons_append.
  - apply wp_bind. eapply wp_conseq; [apply split_spec; auto; lia|].
    intros [x y] (Hp & Hx & Hy). cbn [fst snd] in *. apply wp_ret. split; auto.
    rewrite Hp. symmetry. apply Permutation_cons_append.
Qed.
End Split.
