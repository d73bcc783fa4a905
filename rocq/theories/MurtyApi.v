(** One draw of a Murty object, for clients of the algorithm. *)
From Coq Require Import List Arith Bool Lia Reals Lra.
Import ListNotations.
From Verif Require Import Res Scalar Lap LapSpec LapBase LapMain Murty MurtyBase MurtySub MurtyProofs MurtyMain.
Local Open Scope nat_scope.

Lemma shifted_0 C : shifted C 0%R = C.
Proof.
  destruct C as [r c o d]. unfold shifted. simpl m_rows. simpl m_cols. simpl m_ord. simpl m_data. f_equal.
  rewrite <- (map_id d) at 2. apply map_ext. intros [x| | |]; auto.
  rewrite sub_FF. f_equal. lra.
Qed.

Section Api.
Variable C : matrix (ext R).
Hypothesis HC : cost_matrix C.
Hypothesis Hrows : m_rows C <= 30.
Hypothesis Hord : m_ord C = RowMajor.
Hypothesis Hr0 : 0 < m_rows C.
Hypothesis Hc0 : 0 < m_cols C.
Variable pick : nat -> list (mstate (T := ext R)) -> nat.
Hypothesis Hpick : valid_pick pick.

(** The object [M] has returned the assignments [D]. *)
Definition minv (M : murty (T := ext R)) (D : list (list nat)) : Prop :=
  exists mn L, mu_offset M = Fin (mn * INR (m_rows C))%R /\ mu_queue M = map fst L /\ inv (shifted C mn) L D.

Lemma minv_new : exists M, murty_new extR C = Ok M /\ minv M [].
Proof.
  unfold murty_new.
  assert (Hne : m_data C <> []).
  { destruct HC as [H _]. intros E. rewrite E in H. simpl in H. nia. }
  destruct (min_coeff_ok (m_data C) Hne (proj2 HC)) as (mn & -> & Hmn & Hmin). cbn [bind].
  destruct (nlt extR mn (n0 extR)) eqn:Elt.
  - destruct Hmn as [[x ->]| ->]; [|discriminate].
    eexists. split; [reflexivity|]. exists x, [(root_state extR (shifted C x), ([], []))].
    split; [reflexivity|]. split; [reflexivity|].
    apply (root_inv (shifted C x) (shifted_cost C HC x) Hrows Hord).
    intros y Hy. simpl in Hy. apply in_map_iff in Hy. destruct Hy as (z & Ez & Hz).
    destruct z as [z| | |]; try discriminate. change (Fin (z - x)%R = Fin y) in Ez. inversion Ez; subst.
    destruct (Hmin z Hz) as (x' & Ex & Hx). inversion Ex; subst. lra.
  - eexists. split; [reflexivity|]. exists 0%R, [(root_state extR C, ([], []))]. rewrite shifted_0.
    split; [change (n0 extR) with (@Fin R 0%R); cbn [mu_offset]; f_equal; lra|]. split; [reflexivity|].
    apply (root_inv C HC Hrows Hord).
    intros y Hy. destruct (Hmin y Hy) as (x & -> & Hx).
    change (n0 extR) with (@Fin R 0%R) in Elt. rewrite lt_FF in Elt.
    destruct (Rltb_spec x 0); [discriminate|lra].
Qed.

Definition next_draw (D : list (list nat)) (a : option (ext R * list (option nat)) * murty (T := ext R)) : Prop :=
  match fst a with
  | None => forall s, feasible C s -> In s D
  | Some (cst, sol) => exists sg, sol = map Some sg /\ feasible C sg /\ cst = Fin (total C sg) /\
      ~ In sg D /\
      (forall d, In d D -> (total C d <= total C sg)%R) /\
      (forall s, feasible C s -> ~ In s D -> (total C sg <= total C s)%R) /\
      minv (snd a) (D ++ [sg])
  end.

Lemma minv_draw M D : minv M D -> spec (fun fuel => draw extR pick fuel M) (next_draw D).
Proof.
  intros (mn & L & Eoff & Eq & HI).
  pose proof (iv_f _ _ _ HI) as HDf.
  eapply spec_conseq.
  { apply (draw_spec (shifted C mn) (shifted_cost C HC mn) Hrows Hord pick Hpick L D M HI Eq). }
  intros [o M'] [Eo Ho]. unfold next_draw. cbn [fst snd]. destruct o as [[cst sol]|].
  - destruct Ho as (sg & L' & -> & Hf & -> & Hn & Hb & Hm & Eq' & HI').
    pose proof (proj1 (shifted_feasible C mn sg) Hf) as Hf'.
    exists sg. split; auto. split; auto. split; [|split; [auto|split; [|split]]].
    + rewrite Eoff, add_FF. f_equal. symmetry. apply shifted_total. auto.
    + intros d Hd. rewrite !(shifted_total C mn); auto.
      * apply Rplus_le_compat_r. auto.
      * apply (shifted_feasible C mn). auto.
    + intros s Hs Hns. rewrite !(shifted_total C mn); auto.
      apply Rplus_le_compat_r. apply Hm; auto. apply shifted_feasible; auto.
    + exists mn, L'. rewrite Eo. auto.
  - destruct Ho as [_ HI']. intros s Hs. apply (shifted_feasible C mn) in Hs.
    pose proof (iv_cnt _ _ _ HI' s Hs) as Hc. unfold MurtyProofs.cnt in Hc. simpl in Hc.
    apply (count_occ_In (list_eq_dec Nat.eq_dec)). lia.
Qed.
End Api.
