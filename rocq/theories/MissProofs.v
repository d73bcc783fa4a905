(** The mixture of a target without any report. *)
From Coq Require Import List Arith NArith Bool Reals Lra Lia Permutation.
Import ListNotations.
From Verif Require Import Res Scalar LapBase RTree RTreeSpec RTreeInst Murty MurtyMain Cluster ClusterSpec ClusterMain
  GM GMSpec GMProofs Tracker TrackerSpec TrackerOps TrackerOpsSpec TrackerOpsProofs StepSpec StepProofs MissSpec.
Local Open Scope nat_scope.

Section Miss.
Context {G BB Rep : Type}.
Variable op : ops G BB Rep.
Variable pm : params.
Notation comp := (comp (G := G)).
Notation target := (target (P := pdf (G := G) (BB := BB))).

Lemma combine_map_r {A B C} (f : B -> C) (l : list A) (m : list B) : combine l (map f m) = map (fun x => (fst x, f (snd x))) (combine l m).
Proof. revert m. induction l as [|x l IH]; intros [|y m]; simpl; auto. f_equal. apply IH. Qed.

Lemma map_snd_combine {A B} (l : list A) (m : list B) : length l = length m -> map snd (combine l m) = m.
Proof. revert m. induction l as [|x l IH]; intros [|y m] H; simpl in *; try discriminate; auto. f_equal. apply IH. congruence. Qed.

Lemma combine_seq_num {A} (l : list A) k : map fst (combine (seq k (length l)) l) = seq k (length l).
Proof. revert k. induction l as [|x l IH]; intros k; simpl; auto. f_equal. apply IH. Qed.

Lemma nth_error_map_some {A B} (f : A -> B) l i y : nth_error (map f l) i = Some y -> exists x, nth_error l i = Some x /\ y = f x.
Proof. rewrite nth_error_map. destruct (nth_error l i); simpl; intros E; inversion E; eauto. Qed.

(** Cutting and normalising a scaled mixture. *)
Lemma mixed_single p (c c' : list comp) : mixed pm [p] [c] c' -> reweighted (fun g => g) (fun _ => 1%R) c c'.
Proof.
  intros (k & rest & eta & Hp & _ & _ & _ & _ & Hn). unfold scaled in Hp. cbn [combine flat_map fst snd] in Hp. rewrite app_nil_r in Hp.
  set (num := combine (seq 0 (length c)) c) in *.
  set (F := fun x : nat * comp => ((p * fst (snd x))%R, snd (snd x)) : comp).
  assert (Ec : map (fun g => ((p * fst g)%R, snd g)) c = map F num).
  { rewrite <- (map_snd_combine (seq 0 (length c)) c) at 1 by apply seq_length. fold num. rewrite map_map. reflexivity. }
  rewrite Ec in Hp. destruct (Permutation_map_inv _ _ Hp) as (l3 & E3 & Hp3).
  destruct Hn as [(Ht & _ & E1 & E2 & _)|(_ & -> & _)].
  2:{ exists [], num. split; [simpl; auto|]. split; [constructor|]. intros [|a]; discriminate. }
  set (n := length k). exists (firstn n l3), (skipn n l3).
  assert (Ek : k = map F (firstn n l3)).
  { rewrite <- firstn_map, <- E3. unfold n. rewrite firstn_app, Nat.sub_diag, firstn_all, firstn_O, app_nil_r. reflexivity. }
  assert (Hlc : length c' = length k) by (apply (f_equal (@length _)) in E1; rewrite !map_length in E1; exact E1).
  split; [rewrite firstn_skipn; apply Permutation_sym; exact Hp3|].
  assert (Hpt : forall a x g', nth_error (firstn n l3) a = Some x -> nth_error c' a = Some g' ->
    snd g' = snd (snd x) /\ (fst g' * total k = p * fst (snd x))%R).
  { intros a x g' Ea Eg. assert (Ea' : nth_error k a = Some ((p * fst (snd x))%R, snd (snd x))) by (rewrite Ek; exact (map_nth_error F _ _ Ea)).
    pose proof (map_nth_error snd _ _ Eg) as F1.
    pose proof (map_nth_error (fun g => (fst g * total k)%R) _ _ Eg) as F2.
    rewrite E1, (map_nth_error snd _ _ Ea') in F1. rewrite E2, (map_nth_error fst _ _ Ea') in F2. cbn [fst snd] in F1, F2. split; congruence. }
  split.
  - assert (Hl : length (firstn n l3) = length c') by (rewrite Hlc, Ek at 1; rewrite map_length; reflexivity).
    revert Hpt Hl. generalize (firstn n l3) as u. generalize c' as v. clear. intros v u. revert v. induction u as [|x u IH]; intros [|y v] Hpt Hl; try discriminate; constructor.
    + apply (Hpt 0 x y); reflexivity.
    + apply IH; [|simpl in Hl; congruence]. intros a. exact (Hpt (S a)).
  - intros a b i j g h g' h' Ha Hb Hg Hh. destruct (Hpt _ _ _ Ha Hg) as (_ & F1). destruct (Hpt _ _ _ Hb Hh) as (_ & F2). cbn [snd] in F1, F2.
    assert (Htp : (0 < total k)%R) by lra. rewrite !Rmult_1_r.
    apply (Rmult_eq_reg_r (total k)); [|lra].
    replace (fst g' * fst h * total k)%R with (fst g' * total k * fst h)%R by ring.
    replace (fst h' * fst g * total k)%R with (fst h' * total k * fst g)%R by ring. rewrite F1, F2. ring.
Qed.

Lemma reweighted_refl (c : list comp) : reweighted (fun g => g) (fun _ => 1%R) c c.
Proof.
  exists (combine (seq 0 (length c)) c), []. rewrite app_nil_r. split; auto.
  assert (Hpt : forall a i g g', nth_error (combine (seq 0 (length c)) c) a = Some (i, g) -> nth_error c a = Some g' -> g = g').
  { intros a i g g' Ha Hg. assert (X : nth_error (map snd (combine (seq 0 (length c)) c)) a = Some g) by exact (map_nth_error snd _ _ Ha).
    rewrite map_snd_combine in X by apply seq_length. congruence. }
  split.
  - generalize 0. clear Hpt. induction c as [|x c IH]; intros k; simpl; constructor; auto.
  - intros a b i j g h g' h' Ha Hb Hg Hh. rewrite <- (Hpt _ _ _ _ Ha Hg), <- (Hpt _ _ _ _ Hb Hh). ring.
Qed.

Lemma reweighted_carried (f1 f2 : G -> G) (c c1 c2 c' : list comp) factor :
  carried f1 c c1 -> reweighted (fun g => g) factor c1 c2 -> carried f2 c2 c' -> reweighted (fun g => f2 (f1 g)) factor c c'.
Proof.
  intros H1 (kept & rest & Hp & Hk & Hw) H2.
  assert (E1 : c1 = map (fun g => (fst g, f1 (snd g))) c).
  { clear -H1. induction H1 as [|x y l l' (E1 & E2) _ IH]; simpl; auto. rewrite <- IH. f_equal. destruct y; simpl in *; subst; reflexivity. }
  assert (E2 : c' = map (fun g => (fst g, f2 (snd g))) c2).
  { clear -H2. induction H2 as [|x y l l' (E1 & E2) _ IH]; simpl; auto. rewrite <- IH. f_equal. destruct y; simpl in *; subst; reflexivity. }
  set (F := fun x : nat * comp => (fst x, (fst (snd x), f1 (snd (snd x)))) : nat * comp).
  rewrite E1, map_length, combine_map_r in Hp. change (fun x => (fst x, _)) with F in Hp. destruct (Permutation_map_inv _ _ Hp) as (l3 & E3 & Hp3).
  set (n := length kept). exists (firstn n l3), (skipn n l3).
  assert (Ek : kept = map F (firstn n l3)).
  { rewrite <- firstn_map, <- E3. unfold n. rewrite firstn_app, Nat.sub_diag, firstn_all, firstn_O, app_nil_r. reflexivity. }
  split; [rewrite firstn_skipn; apply Permutation_sym; exact Hp3|]. split.
  - rewrite E2. rewrite Ek in Hk. revert Hk. generalize (firstn n l3) as u. clear. intros u. revert c2.
    induction u as [|x u IH]; intros [|y v] Hk; simpl in *; inversion Hk; subst; constructor; auto.
    cbn [snd]. match goal with H : snd y = _ |- _ => rewrite H end. reflexivity.
  - intros a b i j g h g' h' Ha Hb Hg Hh. rewrite E2 in Hg, Hh. apply nth_error_map_some in Hg, Hh.
    destruct Hg as (g2 & Hg & ->). destruct Hh as (h2 & Hh & ->). cbn [fst].
    refine (Hw a b i j (fst g, f1 (snd g)) (fst h, f1 (snd h)) g2 h2 _ _ Hg Hh);
      rewrite Ek; [exact (map_nth_error F _ _ Ha)|exact (map_nth_error F _ _ Hb)].
Qed.

(** The weights do not depend on where the sensor looked. *)
Lemma miss_weights (s : sensor (BB := BB)) (t t' : target) rs' : cluster_result op pm s [] [t] [t'] rs' ->
  exists o, reweighted (fun g => g_global op o (g_local op o g)) (fun _ => 1%R) (p_c (tg_pdf t)) (p_c (tg_pdf t')).
Proof.
  intros H. unfold cluster_result in H. cbv zeta in H. destruct H as (frames & tins & css & ds & Hf & _ & _ & _ & _ & Ht & _).
  set (o := (_, _)) in *. exists o. inversion Hf as [|? c1 ? ? Hc1 Hf1]; subst. inversion Hf1; subst.
  destruct (Ht 0 t c1 eq_refl eq_refl) as (tin & cs & t2 & c' & _ & _ & E3 & Hw & _ & _ & _ & _ & Hg & _ & Hlow & Hhigh).
  cbn [nth_error] in E3. injection E3 as <-. eapply reweighted_carried; [exact Hc1| |exact Hg].
  match type of Hlow with (?x < _)%R -> _ => destruct (Rlt_le_dec x (1 / 1000000)) as [Hl|Hl] end.
  - destruct (Hlow Hl) as (_ & ->). apply reweighted_refl.
  - destruct (Hhigh Hl) as (_ & Hm). destruct Hw as (_ & Hlen & _). destruct cs as [|? ?]; [|discriminate]. cbn [app seq length Nat.add map] in Hm.
    eapply mixed_single. exact Hm.
Qed.

Lemma reweighted_const (f : G -> G) factor x (c c' : list comp) : (forall i, i < length c -> factor i = x) ->
  reweighted f (fun _ => 1%R) c c' -> reweighted f factor c c'.
Proof.
  intros Hx (kept & rest & Hp & Hk & Hw). exists kept, rest. split; auto. split; auto. intros a b i j g h g' h' Ha Hb Hg Hh.
  assert (Hi : forall a i g, nth_error kept a = Some (i, g) -> factor i = x).
  { intros a0 i0 g0 E. apply Hx. apply nth_error_In in E. assert (Hin : In (i0, g0) (combine (seq 0 (length c)) c)).
    { eapply Permutation_in; [exact Hp|]. apply in_or_app. auto. }
    apply in_combine_l in Hin. apply in_seq in Hin. lia. }
  rewrite (Hi _ _ _ Ha), (Hi _ _ _ Hb). specialize (Hw a b i j g h g' h' Ha Hb Hg Hh). rewrite !Rmult_1_r in Hw.
  replace (fst g' * (fst h * x))%R with (fst g' * fst h * x)%R by ring. rewrite Hw. ring.
Qed.
End Miss.
