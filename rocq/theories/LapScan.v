(** The row scans of both builds ([find_umins]) find the two smallest reduced
    costs. *)
From Coq Require Import List Arith Bool Reals Lra Lia ZArith.
Import ListNotations.
From Verif Require Import Res Scalar Lap LapSpec LapBase.
Open Scope R_scope.

Section Scan.
Variables (n m : nat) (C : list (ext R)).
Hypothesis HC : wfC n m C.
Variables (v : list (ext R)) (i : nat).
Hypothesis Hv : vok m v.
Hypothesis Hi : (i < n)%nat.
Notation st := (ext R * ext R * option nat * option nat)%type.
Notation av := (av m C v i).
Notation rc := (rc m C v i).
Notation hh := (hh m C v i).

(** What is known after the columns [P]. *)
Definition seen (P : nat -> Prop) (s : st) : Prop :=
  let '(umin, usubmin, j1, j2) := s in
  (umin = PInf /\ usubmin = PInf /\ forall j, P j -> av j = false) \/
  (exists a, j1 = Some a /\ P a /\ av a = true /\ umin = Fin (rc a) /\
     (forall j, P j -> av j = true -> rc a <= rc j) /\
     ((usubmin = PInf /\ forall j, P j -> j <> a -> av j = false) \/
      (exists b, j2 = Some b /\ P b /\ b <> a /\ av b = true /\ usubmin = Fin (rc b) /\
         forall j, P j -> j <> a -> av j = true -> rc b <= rc j))).

Lemma seen_ext P Q s : (forall j, P j <-> Q j) -> seen P s -> seen Q s.
Proof.
  intros E. destruct s as [[[u w] j1] j2]. simpl.
  intros [(A & B & D)|(a & A & B & D & F & G & K)].
  - left. repeat split; auto. intros j Hj. apply D, E, Hj.
  - right. exists a. rewrite <- E. repeat split; auto.
    + intros j Hj. apply G, E, Hj.
    + destruct K as [[K1 K2]|(b & K1 & K2 & K3 & K4 & K5 & K6)].
      * left. split; auto. intros j Hj. apply K2, E, Hj.
      * right. exists b. rewrite <- E. repeat split; auto. intros j Hj. apply K6, E, Hj.
Qed.

Lemma hh_av k : av k = true -> hh k = Fin (rc k).
Proof. unfold LapBase.hh. intros ->. auto. Qed.
Lemma hh_not k : av k = false -> hh k = PInf.
Proof. unfold LapBase.hh. intros ->. auto. Qed.

(** A column that is not available changes nothing known. *)
Lemma seen_unavailable P k s : av k = false -> seen P s -> seen (fun j => P j \/ j = k) s.
Proof.
  intros Ek. destruct s as [[[u w] j1] j2]. simpl.
  intros [(A & B & D)|(a & A & B & D & F & G & K)].
  - left. repeat split; auto. intros j [Hj| ->]; auto.
  - right. exists a. repeat split; auto.
    + intros j [Hj| ->]; auto. congruence.
    + destruct K as [[K1 K2]|(b & K1 & K2 & K3 & K4 & K5 & K6)].
      * left. split; auto. intros j [Hj| ->]; auto.
      * right. exists b. repeat split; auto. intros j [Hj| ->]; auto. congruence.
Qed.

(** The new column becomes the smallest. *)
Lemma seen_first P k u w (j1 j2 : option nat) : av k = true ->
  seen P (u, w, j1, j2) -> ~ P k ->
  (forall a, j1 = Some a -> P a -> av a = true -> u = Fin (rc a) -> rc k <= rc a) ->
  seen (fun j => P j \/ j = k) (Fin (rc k), u, Some k, j1).
Proof.
  intros Ek Hs Hn Hle. simpl in *. right. exists k. repeat split; auto.
  - destruct Hs as [(A & B & D)|(a & A & B & D & F & G & K)].
    + intros j [Hj| ->] Ha; [|lra]. rewrite D in Ha by auto. discriminate.
    + intros j [Hj| ->] Ha; [|lra]. specialize (Hle a A B D F). specialize (G j Hj Ha). lra.
  - destruct Hs as [(A & B & D)|(a & A & B & D & F & G & K)].
    + left. split; auto. intros j [Hj| ->] Hne; auto. congruence.
    + right. exists a. repeat split; auto; [congruence|].
      intros j [Hj| ->] Hne Ha; auto. congruence.
Qed.

(** The new column becomes the second smallest. *)
Lemma seen_second P k a w (j2 : option nat) : av k = true ->
  seen P (Fin (rc a), w, Some a, j2) -> ~ P k -> rc a <= rc k ->
  (forall b, w = Fin b -> rc k <= b) ->
  seen (fun j => P j \/ j = k) (Fin (rc a), Fin (rc k), Some a, Some k).
Proof.
  intros Ek Hs Hn Hle Hw. simpl in *. right.
  destruct Hs as [(A & _)|(a' & A & B & D & F & G & K)]; [discriminate|].
  inversion A; subst a'. exists a. repeat split; auto.
  - intros j [Hj| ->] Ha; auto.
  - right. exists k. repeat split; auto; [congruence|].
    intros j [Hj| ->] Hne Ha; [|lra].
    destruct K as [[K1 K2]|(b & K1 & K2 & K3 & K4 & K5 & K6)].
    + rewrite K2 in Ha by auto. discriminate.
    + specialize (Hw _ K5). specialize (K6 j Hj Hne Ha). lra.
Qed.

(** The new column is third or later. *)
Lemma seen_rest P k a b : av k = true ->
  seen P (Fin (rc a), Fin (rc b), Some a, Some b) -> rc a <= rc b -> rc b <= rc k ->
  seen (fun j => P j \/ j = k) (Fin (rc a), Fin (rc b), Some a, Some b).
Proof.
  intros Ek Hs Hle Hbk. simpl in *. right.
  destruct Hs as [(A & _)|(a' & A & B & D & F & G & K)]; [discriminate|].
  inversion A; subst a'. exists a. repeat split; auto.
  - intros j [Hj| ->] Ha; auto. lra.
  - destruct K as [[K1 _]|(b' & K1 & K2 & K3 & K4 & K5 & K6)]; [discriminate|].
    inversion K1; subst b'.
    right. exists b. repeat split; auto. intros j [Hj| ->] Hne Ha; auto.
Qed.

(** The order of the two smallest. *)
Lemma seen_order P a b j1 j2 u w : seen P (u, w, j1, j2) -> u = Fin a -> w = Fin b -> a <= b.
Proof.
  intros [(A & B & D)|(a' & A & B & D & F & G & K)] -> ->; [discriminate|].
  inversion F; subst a. destruct K as [[K1 _]|(b' & K1 & K2 & K3 & K4 & K5 & K6)]; [discriminate|].
  inversion K5; subst b. auto.
Qed.

Ltac cases Hs :=
  let Hs' := fresh "Hs'" in
  pose proof Hs as Hs';
  destruct Hs' as [(-> & -> & ?)|(?a & -> & ?Ha & ?Aa & -> & ?Hmin & [[-> ?]|(?b & -> & ?Hb & ?Hne & ?Ab & -> & ?Hsub)])].

Lemma umins_step_seen P k s : seen P s -> ~ P k ->
  seen (fun j => P j \/ j = k) (umins_step extR k (hh k) s).
Proof.
  intros Hs Hn. destruct (av k) eqn:Ek.
  2:{ rewrite hh_not by auto. destruct s as [[[u w] j1] j2]. unfold umins_step. rewrite lt_Px.
      apply seen_unavailable; auto. }
  rewrite hh_av by auto. destruct s as [[[u w] j1] j2]. unfold umins_step. cases Hs.
  - rewrite lt_FP, le_PF. apply seen_first with (w := PInf) (j2 := j2); auto. intros; discriminate.
  - rewrite lt_FP, le_FF. destruct (Rleb_spec (rc a) (rc k)).
    + apply seen_second with (w := PInf) (j2 := j2); auto. intros; discriminate.
    + apply seen_first with (w := PInf) (j2 := j2); auto. intros a' E _ _ _. inversion E; subst. lra.
  - rewrite lt_FF, le_FF. destruct (Rltb_spec (rc k) (rc b)).
    + destruct (Rleb_spec (rc a) (rc k)).
      * apply seen_second with (w := Fin (rc b)) (j2 := Some b); auto. intros b' E; inversion E; lra.
      * apply seen_first with (w := Fin (rc b)) (j2 := Some b); auto. intros a' E _ _ _. inversion E; subst. lra.
    + apply seen_rest; auto; try lra.
Qed.

Lemma lane_step_seen P k s : seen P s -> ~ P k ->
  seen (fun j => P j \/ j = k) (lane_step extR k (hh k) s).
Proof.
  intros Hs Hn. destruct (av k) eqn:Ek.
  2:{ rewrite hh_not by auto. destruct s as [[[u w] j1] j2]. unfold lane_step. cases Hs.
      - change (nle extR PInf PInf) with true. cbv iota.
        apply seen_unavailable; auto. left. auto.
      - rewrite le_PF, lt_Px. apply seen_unavailable; auto.
      - rewrite le_PF, lt_Px. apply seen_unavailable; auto. }
  rewrite hh_av by auto. destruct s as [[[u w] j1] j2]. unfold lane_step. cases Hs.
  - change (nle extR (Fin (rc k)) PInf) with true. cbv iota.
    apply seen_first with (w := PInf) (j2 := j2); auto. intros; discriminate.
  - rewrite le_FF. destruct (Rleb_spec (rc k) (rc a)).
    + apply seen_first with (w := PInf) (j2 := j2); auto. intros a' E _ _ _. inversion E; subst. lra.
    + rewrite lt_FP. apply seen_second with (w := PInf) (j2 := j2); auto; [lra|]. intros; discriminate.
  - rewrite le_FF. destruct (Rleb_spec (rc k) (rc a)).
    + apply seen_first with (w := Fin (rc b)) (j2 := Some b); auto. intros a' E _ _ _. inversion E; subst. lra.
    + rewrite lt_FF. destruct (Rltb_spec (rc k) (rc b)).
      * apply seen_second with (w := Fin (rc b)) (j2 := Some b); auto; [lra|]. intros b' E; inversion E; lra.
      * apply seen_rest; auto; lra.
Qed.

(** A loop over columns one by one. *)
Lemma scan_loop F cnt a P s : seen P s -> (forall j, P j <-> (j < a)%nat) -> (a + cnt <= m)%nat ->
  wp F (for_loop cnt a
    (fun j s => cj <- get C (i * m + j);; vj <- get v j;; Ok (umins_step extR j (nsub extR cj vj) s)) s)
    (seen (fun j => (j < a + cnt)%nat)).
Proof.
  intros Hs HP Hm.
  apply (wp_for F cnt a _ (fun k => seen (fun j => (j < k)%nat))).
  - apply (seen_ext P); auto.
  - intros k s' Hk HI. rewrite (get_c n m C HC) by lia. cbn [bind].
    rewrite (get_v m) by (auto; lia). cbn [bind]. rewrite (h_val n m C HC) by (auto; lia).
    apply wp_ret. apply (seen_ext (fun j => (j < k)%nat \/ j = k)); [lia|].
    apply umins_step_seen; auto. lia.
Qed.

Lemma plain_seen F : (0 < m)%nat -> wp F (find_umins_plain extR m i C v) (seen (fun j => (j < m)%nat)).
Proof.
  intros Hm. unfold find_umins_plain.
  rewrite (get_c n m C HC) by lia. cbn [bind]. rewrite (get_v m) by (auto; lia). cbn [bind].
  rewrite (h_val n m C HC) by (auto; lia).
  eapply wp_conseq; [apply scan_loop with (P := fun j => (j < 1)%nat)|].
  - unfold seen. destruct (av 0%nat) eqn:E0.
    + right. exists 0%nat. rewrite hh_av by auto. repeat split; auto.
      * intros j Hj _. replace j with 0%nat by lia. lra.
      * left. split; auto. lia.
    + left. rewrite hh_not by auto. repeat split; auto. intros j Hj. replace j with 0%nat by lia. auto.
  - intros; lia.
  - lia.
  - intros s. apply seen_ext. intros; lia.
Qed.

(** * The vector build *)
Lemma lanes_step_spec F d : forall ls j (P : nat -> nat -> Prop), (j + length ls <= m)%nat ->
  (forall l, (l < length ls)%nat -> seen (P l) (nth l ls d) /\ ~ P l (j + l)%nat) ->
  wp F (lanes_step extR i m j C v ls) (fun ls' => length ls' = length ls /\
    forall l, (l < length ls)%nat -> seen (fun k => P l k \/ k = (j + l)%nat) (nth l ls' d)).
Proof.
  induction ls as [|s ls IH]; intros j P Hm H; cbn [lanes_step].
  - split; auto. simpl. intros; lia.
  - cbn [length] in Hm. rewrite (get_c n m C HC) by lia. cbn [bind].
    rewrite (get_v m) by (auto; lia). cbn [bind]. rewrite (h_val n m C HC) by (auto; lia).
    apply wp_bind. eapply wp_conseq; [apply (IH (S j) (fun l => P (S l))); [lia|]|].
    + intros l Hl. specialize (H (S l)). simpl in H. rewrite <- Nat.add_succ_comm in H. apply H. lia.
    + intros ls' [E H']. apply wp_ret. simpl. split; [congruence|].
      intros [|l] Hl.
      * destruct (H 0%nat) as [A B]; [simpl; lia|]. simpl in A. rewrite Nat.add_0_r in *.
        apply lane_step_seen; auto.
      * apply (seen_ext (fun k => P (S l) k \/ k = (S j + l)%nat)); [intros; rewrite <- Nat.add_succ_comm; tauto|].
        apply H'. lia.
Qed.

Definition mins (s : st) (j : nat) : Prop :=
  let '(u, _, j1, _) := s in u <> PInf /\ j1 = Some j.
Definition subs (s : st) (j : nat) : Prop :=
  let '(_, w, _, j2) := s in w <> PInf /\ j2 = Some j.


Lemma mins_in P s j : seen P s -> mins s j -> P j /\ av j = true /\ fst (fst (fst s)) = Fin (rc j).
Proof.
  destruct s as [[[u w] j1] j2]. intros [(-> & _)|(a & -> & Ha & Aa & -> & _)] [Hu E]; [congruence|].
  inversion E; subst. auto.
Qed.

Lemma subs_in P s j : seen P s -> subs s j ->
  P j /\ av j = true /\ ~ mins s j /\ snd (fst (fst s)) = Fin (rc j) /\
  exists a, mins s a /\ rc a <= rc j.
Proof.
  destruct s as [[[u w] j1] j2].
  intros [(_ & -> & _)|(a & -> & Ha & Aa & -> & Hm & [[-> _]|(b & -> & Hb & Hne & Ab & -> & _)])] [Hu E]; try congruence.
  inversion E; subst. repeat split; auto.
  - intros [_ X]. congruence.
  - exists a. repeat split; auto. discriminate.
Qed.

(** A lane is known by its two smallest. *)
Lemma lane_cover P s j : seen P s -> P j -> av j = true ->
  exists a, mins s a /\ (j = a \/ exists b, subs s b /\ rc a <= rc b /\ rc b <= rc j).
Proof.
  destruct s as [[[u w] j1] j2].
  intros [(_ & _ & H)|(a & -> & Ha & Aa & -> & Hm & K)] Hj Aj; [rewrite H in Aj; [discriminate|auto]|].
  exists a. split; [split; auto; discriminate|].
  destruct (Nat.eq_dec j a); auto. right.
  destruct K as [[-> K]|(b & -> & Hb & Hne & Ab & -> & K)]; [rewrite K in Aj; [discriminate|auto|auto]|].
  exists b. repeat split; auto. discriminate.
Qed.

Section Merge.
Variable cls : nat -> nat.
Variable d : st.

Lemma merge_min_seen : forall ls l0 Q s, seen Q s -> (forall j, Q j -> (cls j < l0)%nat) ->
  (forall l, (l < length ls)%nat -> exists P, seen P (nth l ls d) /\ forall j, P j -> cls j = (l0 + l)%nat) ->
  seen (fun j => Q j \/ exists l, (l < length ls)%nat /\ mins (nth l ls d) j) (merge_min extR ls s).
Proof.
  induction ls as [|x ls IH]; intros l0 Q s Hs HQ HP; simpl.
  - apply (seen_ext Q); auto. intros j. split; auto. intros [Hj|(l & Hl & _)]; auto. lia.
  - destruct (HP 0%nat) as (P & Hx & HPc); [simpl; lia|]. simpl in Hx. rewrite Nat.add_0_r in HPc.
    set (s' := let '(umin, usubmin, j1, j2) := s in let '(h, _, jnew, _) := x in
       if nlt extR h usubmin then if nle extR umin h then (umin, h, j1, jnew) else (h, umin, jnew, j1) else s).
    assert (Hs' : seen (fun j => Q j \/ mins x j) s').
    { destruct x as [[[h w'] jn] jn2].
      assert (X : h = PInf \/ exists a, jn = Some a /\ P a /\ av a = true /\ h = Fin (rc a)).
      { destruct Hx as [(-> & _)|(a & ? & ? & ? & ? & _)]; eauto. right. exists a. auto. }
      destruct X as [->|(a & -> & Ha & Aa & ->)].
      - unfold s'. destruct s as [[[u w] j1] j2]. rewrite lt_Px. apply (seen_ext Q); auto.
        intros j. simpl. split; auto. intros [Hj|[Hj _]]; auto. congruence.
      - apply (seen_ext (fun j => Q j \/ j = a)).
        + intros j. simpl. split; (intros [Hj|Hj]; [auto|right]).
          * subst. split; auto. discriminate.
          * destruct Hj as [_ E]. congruence.
        + unfold s'. destruct s as [[[u w] j1] j2].
          pose proof (umins_step_seen Q a (u, w, j1, j2) Hs) as X. rewrite hh_av in X by auto. apply X.
          intros Hq. apply HQ in Hq. rewrite HPc in Hq by auto. lia. }
    eapply seen_ext; [|apply (IH (S l0) (fun j => Q j \/ mins x j) s' Hs')].
    + intros j. simpl. split.
      * intros [[Hj|Hj]|(l & Hl & Hj)]; auto; right; [exists 0%nat; split; auto; lia|exists (S l); split; auto; lia].
      * intros [Hj|([|l] & Hl & Hj)]; auto. right. exists l. split; auto. lia.
    + intros j [Hj|Hj]; [apply HQ in Hj; lia|]. apply (mins_in P) in Hj; auto. rewrite HPc by tauto. lia.
    + intros l Hl. destruct (HP (S l)) as (P' & A & B); [simpl; lia|]. exists P'. split; auto.
      intros j Hj. rewrite (B j Hj). lia.
Qed.

Lemma merge_sub_seen : forall ls l0 (Q : nat -> Prop) s, seen Q s ->
  (forall j, Q j -> (cls j < l0)%nat \/ exists l, (l < length ls)%nat /\ mins (nth l ls d) j) ->
  (forall l j, (l < length ls)%nat -> mins (nth l ls d) j -> Q j) ->
  (forall l, (l < length ls)%nat -> exists P, seen P (nth l ls d) /\ forall j, P j -> cls j = (l0 + l)%nat) ->
  seen (fun j => Q j \/ exists l, (l < length ls)%nat /\ subs (nth l ls d) j) (merge_sub extR ls s).
Proof.
  induction ls as [|x ls IH]; intros l0 Q s Hs HQ HM HP; simpl.
  - apply (seen_ext Q); auto. intros j. split; auto. intros [Hj|(l & Hl & _)]; auto. lia.
  - destruct (HP 0%nat) as (P & Hx & HPc); [simpl; lia|]. simpl in Hx. rewrite Nat.add_0_r in HPc.
    set (s' := let '(umin, usubmin, j1, j2) := s in let '(_, h, _, jnew) := x in
       if nlt extR h usubmin then (umin, h, j1, jnew) else s).
    assert (Hs' : seen (fun j => Q j \/ subs x j) s').
    { destruct x as [[[h' h] jn] jn2].
      assert (X : h = PInf \/ exists b, subs (h', h, jn, jn2) b).
      { destruct Hx as [(_ & -> & _)|(a & _ & _ & _ & _ & _ & [[-> _]|(b & -> & _ & _ & _ & -> & _)])]; auto.
        right. exists b. split; auto. discriminate. }
      destruct X as [->|[b Hb]].
      - unfold s'. destruct s as [[[u w] j1] j2]. rewrite lt_Px. apply (seen_ext Q); auto.
        intros j. simpl. split; auto. intros [Hj|[Hj _]]; auto. congruence.
      - destruct (subs_in _ _ _ Hx Hb) as (Pb & Ab & Nb & Eb & a & Ma & Hab).
        simpl in Eb. subst h. assert (jn2 = Some b) as -> by apply Hb.
        assert (Qa : Q a) by (apply (HM 0%nat); [simpl; lia|auto]).
        destruct (mins_in _ _ _ Hx Ma) as (_ & Aa & _).
        assert (Hnq : ~ Q b).
        { intros Hq. destruct (HQ _ Hq) as [Hc|(l & Hl & Hm)].
          - rewrite HPc in Hc by auto. lia.
          - destruct l as [|l]; [apply Nb, Hm|].
            destruct (HP (S l) Hl) as (P' & Hx' & HPc').
            destruct (mins_in _ _ _ Hx' Hm) as (Pb' & _). apply HPc' in Pb'. rewrite HPc in Pb' by auto. lia. }
        apply (seen_ext (fun j => Q j \/ j = b)).
        + intros j. simpl. split; (intros [Hj|Hj]; [auto|right]).
          * subst. split; auto. discriminate.
          * destruct Hj as [_ E]. congruence.
        + unfold s'. destruct s as [[[u w] j1] j2].
          pose proof (umins_step_seen Q b (u, w, j1, j2) Hs Hnq) as X. rewrite hh_av in X by auto.
          unfold umins_step in X. destruct (nlt extR (Fin (rc b)) w); auto.
          assert (Hu : nle extR u (Fin (rc b)) = true); [|rewrite Hu in X; auto].
          destruct Hs as [(_ & _ & H)|(a' & _ & _ & _ & -> & Hm & _)].
          * rewrite H in Aa by auto. discriminate.
          * rewrite le_FF. destruct (Rleb_spec (rc a') (rc b)); auto. specialize (Hm a Qa Aa). lra. }
    eapply seen_ext; [|apply (IH (S l0) (fun j => Q j \/ subs x j) s' Hs')].
    + intros j. simpl. split.
      * intros [[Hj|Hj]|(l & Hl & Hj)]; auto; right; [exists 0%nat; split; auto; lia|exists (S l); split; auto; lia].
      * intros [Hj|([|l] & Hl & Hj)]; auto. right. exists l. split; auto. lia.
    + intros j [Hj|Hj].
      * destruct (HQ _ Hj) as [Hc|([|l] & Hl & Hm)]; [left; lia| |].
        -- left. apply (mins_in P) in Hm; auto. rewrite HPc by tauto. lia.
        -- right. exists l. split; auto. simpl in Hl. lia.
      * left. apply (subs_in P) in Hj; auto. rewrite HPc by tauto. lia.
    + intros l j Hl Hj. left. apply (HM (S l)); auto. simpl. lia.
    + intros l Hl. destruct (HP (S l)) as (P' & A & B); [simpl; lia|]. exists P'. split; auto.
      intros j Hj. rewrite (B j Hj). lia.
Qed.
End Merge.

(** What the merged lanes know about all their columns. *)
Lemma merged_seen ls d (P : nat -> nat -> Prop) (Q : nat -> Prop) s :
  (forall l, (l < length ls)%nat -> seen (P l) (nth l ls d)) ->
  (forall j, Q j -> exists l, (l < length ls)%nat /\ P l j) ->
  (forall l j, (l < length ls)%nat -> P l j -> Q j) ->
  seen (fun j => exists l, (l < length ls)%nat /\ (mins (nth l ls d) j \/ subs (nth l ls d) j)) s ->
  seen Q s.
Proof.
  intros HP HQ HQ' Hs. destruct s as [[[u w] j1] j2].
  assert (Hin : forall j, (exists l, (l < length ls)%nat /\ (mins (nth l ls d) j \/ subs (nth l ls d) j)) -> Q j).
  { intros j (l & Hl & [Hj|Hj]).
    - apply (HQ' l); auto. apply (mins_in _ _ _ (HP l Hl) Hj).
    - apply (HQ' l); auto. apply (subs_in _ _ _ (HP l Hl) Hj). }
  destruct Hs as [(-> & -> & H)|(a & -> & Ha & Aa & -> & Hmin & K)].
  - left. repeat split; auto. intros j Hj. destruct (av j) eqn:Aj; auto.
    destruct (HQ j Hj) as (l & Hl & Pj). destruct (lane_cover _ _ _ (HP l Hl) Pj Aj) as (a & Ma & _).
    destruct (mins_in _ _ _ (HP l Hl) Ma) as (_ & Aa & _). rewrite H in Aa; [discriminate|]. eauto.
  - right. exists a. repeat split; auto.
    + intros j Hj Aj. destruct (HQ j Hj) as (l & Hl & Pj).
      destruct (lane_cover _ _ _ (HP l Hl) Pj Aj) as (a' & Ma & Hc).
      destruct (mins_in _ _ _ (HP l Hl) Ma) as (_ & Aa' & _).
      assert (rc a <= rc a') by (apply Hmin; eauto).
      destruct Hc as [->|(b & _ & H1 & H2)]; lra.
    + destruct K as [[-> K]|(b & -> & Hb & Hne & Ab & -> & K)].
      * left. split; auto. intros j Hj Hja. destruct (av j) eqn:Aj; auto.
        destruct (HQ j Hj) as (l & Hl & Pj).
        destruct (lane_cover _ _ _ (HP l Hl) Pj Aj) as (a' & Ma & Hc).
        destruct (Nat.eq_dec a' a) as [->|Hna].
        -- destruct Hc as [->|(b & Sb & _)]; [congruence|].
           destruct (subs_in _ _ _ (HP l Hl) Sb) as (_ & Ab & Nb & _).
           rewrite K in Ab; [discriminate|eauto|]. intros ->. auto.
        -- destruct (mins_in _ _ _ (HP l Hl) Ma) as (_ & Aa' & _).
           rewrite K in Aa'; [discriminate|eauto|auto].
      * right. exists b. repeat split; auto. intros j Hj Hja Aj.
        destruct (HQ j Hj) as (l & Hl & Pj).
        destruct (lane_cover _ _ _ (HP l Hl) Pj Aj) as (a' & Ma & Hc).
        destruct (Nat.eq_dec a' a) as [->|Hna].
        -- destruct Hc as [->|(b' & Sb & _ & H2)]; [congruence|].
           destruct (subs_in _ _ _ (HP l Hl) Sb) as (_ & Ab' & Nb & _).
           assert (rc b <= rc b') by (apply K; eauto; intros ->; auto). lra.
        -- destruct (mins_in _ _ _ (HP l Hl) Ma) as (_ & Aa' & _).
           assert (rc b <= rc a') by (apply K; eauto).
           destruct Hc as [->|(b' & _ & H1 & H2)]; lra.
Qed.

Lemma avx2_seen F : wp F (find_umins_avx2 extR m i C v) (seen (fun j => (j < m)%nat)).
Proof.
  set (start := (@PInf R, @PInf R, @None nat, @None nat)).
  set (q := (m / 4)%nat).
  assert (Hq : (4 * q <= m)%nat) by (apply Nat.mul_div_le; lia).
  unfold find_umins_avx2. change (ninf extR) with (@PInf R). fold start. fold q.
  set (P := fun b l j => exists k, (k < b)%nat /\ j = (4 * k + l)%nat).
  apply wp_bind. eapply wp_conseq.
  { apply (wp_for F q 0 _ (fun b ls => length ls = 4%nat /\
      forall l, (l < 4)%nat -> seen (P b l) (nth l ls start))).
    - split; auto. intros l Hl. replace (nth l (repeat start 4) start) with start
        by (destruct l as [|[|[|[|l]]]]; try reflexivity; lia).
      left. repeat split; auto. intros j (k & Hk & _). lia.
    - intros b ls Hb [E HI].
      eapply wp_conseq; [apply (lanes_step_spec F start ls (4 * b) (P b)); [lia|]|].
      + intros l Hl. rewrite E in Hl. split; auto. intros (k & Hk & Ek). lia.
      + intros ls' [E' HI']. split; [congruence|]. intros l Hl.
        eapply seen_ext; [|apply HI'; lia]. unfold P. intros j. split.
        * intros [(k & Hk & ->)| ->]; [exists k|exists b]; split; lia.
        * intros (k & Hk & ->). destruct (Nat.eq_dec k b) as [->|]; auto. left. exists k. split; lia. }
  simpl. intros ls [E HI].
  assert (HP : forall l, (l < length ls)%nat -> exists P', seen P' (nth l ls start) /\
     forall j, P' j -> (j mod 4 = 0 + l)%nat).
  { intros l Hl. rewrite E in Hl. exists (P q l). split; auto. intros j (k & _ & ->).
    rewrite Nat.mul_comm, Nat.add_comm, Nat.mod_add by lia. rewrite Nat.mod_small by auto. reflexivity. }
  assert (Hm1 : seen (fun j => False \/ exists l, (l < length ls)%nat /\ mins (nth l ls start) j)
     (merge_min extR ls start)).
  { apply merge_min_seen with (cls := fun j => (j mod 4)%nat) (l0 := 0%nat); auto.
    - left. repeat split; auto. intros j [].
    - intros j []. }
  assert (Hm2 : seen (fun j => exists l, (l < length ls)%nat /\ (mins (nth l ls start) j \/ subs (nth l ls start) j))
     (merge_sub extR ls (merge_min extR ls start))).
  { eapply seen_ext; [|eapply (merge_sub_seen (fun j => (j mod 4)%nat) start ls 0); [exact Hm1| | |exact HP]].
    - intros j. simpl. split.
      + intros [[[]|(l & Hl & Hj)]|(l & Hl & Hj)]; eauto.
      + intros (l & Hl & [Hj|Hj]); [left; right|right]; eauto.
    - intros j [[]|Hj]. auto.
    - intros l j Hl Hj. right. eauto. }
  eapply wp_conseq; [apply scan_loop with (P := fun j => (j < 4 * q)%nat)|].
  - apply (merged_seen ls start (P q)); auto.
    + intros l Hl. apply HI. lia.
    + intros j Hj. exists (j mod 4)%nat. rewrite E. split; [apply Nat.mod_upper_bound; lia|].
      exists (j / 4)%nat. split; [apply Nat.div_lt_upper_bound; lia|apply Nat.div_mod; lia].
    + intros l j Hl (k & Hk & ->). lia.
  - intros; lia.
  - lia.
  - intros s. apply seen_ext. intros j. lia.
Qed.

(** The scan of a row with an available column. *)
Lemma find_umins_spec F simd : (exists j, (j < m)%nat /\ av j = true) ->
  wp F (find_umins extR simd m i C v) (umins_inv m C v i m).
Proof.
  intros (j0 & Hj0 & A0). unfold find_umins. apply wp_bind. eapply wp_conseq.
  { instantiate (1 := seen (fun j => (j < m)%nat)).
    destruct (simd && negb (Z.of_nat m <? 100000)%Z)%bool; [apply avx2_seen|apply plain_seen; lia]. }
  intros [[[u w] j1] j2] Hs.
  destruct Hs as [(_ & _ & H)|(a & -> & Ha & Aa & -> & Hmin & K)]; [rewrite H in A0 by auto; discriminate|].
  cbn [idx bind]. apply wp_ret. simpl. repeat split; auto.
  - symmetry. apply hh_av. auto.
  - destruct K as [[-> K]|(b & -> & Hb & Hne & Ab & -> & K)].
    + left. split; auto.
    + right. exists b. repeat split; auto.
Qed.
End Scan.

(** Below 100000 columns the builds do the same. *)
Section Agree.
Context {T : Type} (N : Num T).

Lemma builds_scan dim i C v : (Z.of_nat dim < 100000)%Z ->
  find_umins N true dim i C v = find_umins N false dim i C v.
Proof. intros H. unfold find_umins. apply Z.ltb_lt in H. rewrite H. reflexivity. Qed.

Lemma builds_loop fuel dim C prev : (Z.of_nat dim < 100000)%Z ->
  forall s, arr_loop N true fuel dim C prev s = arr_loop N false fuel dim C prev s.
Proof.
  intros H. induction fuel as [|fuel IH]; intros s; cbn [arr_loop]; auto.
  destruct (a_k s <? prev); auto.
  assert (E : arr_step N true dim C s = arr_step N false dim C s).
  { unfold arr_step. destruct (get (a_free s) (a_k s)); cbn [bind]; auto. rewrite builds_scan; auto. }
  rewrite E. destruct (arr_step N false dim C s); cbn [bind]; auto.
Qed.

Lemma builds_agree fuel C : (Z.of_nat (m_cols C) < 100000)%Z ->
  lap_build N true fuel C = lap_build N false fuel C.
Proof.
  intros H. unfold lap_build. destruct (hall_check N C) as [[|]| |]; cbn [bind]; auto.
  assert (E : forall u v, rlap N true fuel (m_rows C) (m_cols C) (m_data C) u v =
                          rlap N false fuel (m_rows C) (m_cols C) (m_data C) u v).
  { intros u v. unfold rlap, arr_pass. rewrite builds_loop by auto.
    match goal with |- context [arr_loop N false fuel ?a ?b ?c ?d] => destruct (arr_loop N false fuel a b c d) as [s| |] end;
      cbn [bind]; auto.
    rewrite builds_loop by auto. reflexivity. }
  rewrite E. reflexivity.
Qed.
End Agree.

(** The scans in terms of [two_smallest]. *)
Section Two.
Variables (n m : nat) (C : list (ext R)).
Hypothesis HC : wfC n m C.
Variables (v : list (ext R)) (i : nat).
Hypothesis Hv : vok m v.
Hypothesis Hi : (i < n)%nat.

Lemma reduced_hh j : (j < m)%nat -> reduced m C v i j = hh m C v i j.
Proof. intros Hj. unfold reduced. rewrite <- (h_val n m C HC) by auto. reflexivity. Qed.

Lemma reduced_fin j x : (j < m)%nat -> reduced m C v i j = Fin x -> av m C v i j = true /\ rc m C v i j = x.
Proof.
  intros Hj. rewrite reduced_hh by auto. unfold hh. destruct (av m C v i j); intros E; inversion E; auto.
Qed.

Lemma seen_two u w j1 j2 : seen m C v i (fun j => (j < m)%nat) (u, w, j1, j2) ->
  (exists j, (j < m)%nat /\ exists x, reduced m C v i j = Fin x) ->
  exists a, j1 = Some a /\ two_smallest m (reduced m C v i) u w a j2.
Proof.
  intros Hs (j0 & Hj0 & x & Hx). destruct (reduced_fin _ _ Hj0 Hx) as [A0 _].
  destruct Hs as [(_ & _ & H)|(a & -> & Ha & Aa & -> & Hmin & K)]; [rewrite H in A0 by auto; discriminate|].
  exists a. split; auto. split; [auto|]. split; [rewrite reduced_hh, hh_av; auto|]. split; [|split].
  - intros j Hj. rewrite reduced_hh by auto. unfold hh. destruct (av m C v i j) eqn:Aj; [|reflexivity].
    rewrite le_FF. destruct (Rleb_spec (rc m C v i a) (rc m C v i j)); auto.
  - intros j Hj Hne. rewrite reduced_hh by auto. unfold hh. destruct (av m C v i j) eqn:Aj.
    + destruct K as [[-> K]|(b & -> & Hb & Hnb & Ab & -> & K)]; [rewrite K in Aj by auto; discriminate|].
      rewrite le_FF. destruct (Rleb_spec (rc m C v i b) (rc m C v i j)); auto.
    + destruct K as [[-> K]|(b & -> & Hb & Hnb & Ab & -> & K)]; reflexivity.
  - destruct K as [[-> K]|(b & -> & Hb & Hnb & Ab & -> & K)]; auto.
    right. exists b. repeat split; auto. rewrite reduced_hh, hh_av; auto.
Qed.

Lemma le_antisym_ext (a b : ext R) : nle extR a b = true -> nle extR b a = true -> a = b.
Proof.
  destruct a as [a| | |], b as [b| | |]; try reflexivity; try discriminate.
  rewrite !le_FF. destruct (Rleb_spec a b), (Rleb_spec b a); try discriminate. intros _ _. f_equal. lra.
Qed.

Lemma two_smallest_unique u w a j2 u' w' a' j2' :
  (forall j, (j < m)%nat -> reduced m C v i j <> NaN /\ reduced m C v i j <> NInf) ->
  two_smallest m (reduced m C v i) u w a j2 -> two_smallest m (reduced m C v i) u' w' a' j2' -> u = u' /\ w = w'.
Proof.
  intros HN (H1 & H2 & H3 & H4 & H5) (K1 & K2 & K3 & K4 & K5).
  assert (Eu : u = u') by (apply le_antisym_ext; [rewrite K2|rewrite H2]; auto).
  split; auto.
  assert (X : forall u w a j2 u' w' a' j2', u = u' ->
    two_smallest m (reduced m C v i) u w a j2 -> two_smallest m (reduced m C v i) u' w' a' j2' -> nle extR w w' = true).
  { clear -HN. intros u w a j2 u' w' a' j2' E (H1 & H2 & H3 & H4 & H5) (K1 & K2 & K3 & K4 & K5).
    assert (Hw : w = PInf \/ exists x, w = Fin x).
    { destruct H5 as [->|(b & _ & Hb & _ & ->)]; auto. destruct (HN b Hb).
      destruct (reduced m C v i b); eauto; congruence. }
    destruct K5 as [->|(b & -> & Hb & Hne & ->)].
    - destruct Hw as [->|[x ->]]; reflexivity.
    - destruct (Nat.eq_dec b a) as [->|]; [|auto].
      rewrite <- H2, E, K2. auto. }
  apply le_antisym_ext; [eapply (X u w a j2 u' w' a' j2')|eapply (X u' w' a' j2' u w a j2)]; auto; repeat split; auto.
Qed.

Lemma scans : (exists j, (j < m)%nat /\ exists x, reduced m C v i j = Fin x) ->
  exists u w,
    (exists j1 j2, find_umins_plain extR m i C v = Ok (u, w, Some j1, j2) /\
       two_smallest m (reduced m C v i) u w j1 j2) /\
    (exists j1 j2, find_umins_avx2 extR m i C v = Ok (u, w, Some j1, j2) /\
       two_smallest m (reduced m C v i) u w j1 j2).
Proof.
  intros Hex. assert (Hm : (0 < m)%nat) by (destruct Hex as (j & Hj & _); lia).
  pose proof (plain_seen n m C HC v i Hv Hi False Hm) as X.
  pose proof (avx2_seen n m C HC v i Hv Hi False) as Y.
  destruct (find_umins_plain extR m i C v) as [[[[u w] j1] j2]| |]; [|elim X|elim X].
  destruct (find_umins_avx2 extR m i C v) as [[[[u' w'] j1'] j2']| |]; [|elim Y|elim Y].
  destruct (seen_two _ _ _ _ X Hex) as (a & -> & H). destruct (seen_two _ _ _ _ Y Hex) as (a' & -> & H').
  destruct (two_smallest_unique u w a j2 u' w' a' j2') as [E1 E2]; auto; [|subst u' w'].
  { intros j Hj. rewrite reduced_hh by auto. unfold hh. destruct (av m C v i j); split; discriminate. }
  exists u, w. split; [exists a, j2|exists a', j2']; auto.
Qed.
End Two.
