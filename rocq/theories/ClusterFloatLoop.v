(** The hypothesis loop in doubles: which hypotheses are used and what is added up. *)
From Coq Require Import List Arith Bool Lia ZArith Reals Lra Permutation.
From Flocq Require Import Core BinarySingleNaN IEEE754.PrimFloat.
From Coq Require Import Floats.
Import ListNotations.
From Verif Require Import Res Scalar Lap LapSpec LapBase LapMain LapHom Murty MurtyBase MurtyProofs MurtyMain MurtyApi MurtyFloatMain.
From Verif Require Import FloatBase FloatExt LapFloatMain Cluster ClusterSpec ClusterProofs ClusterFloat.
Local Open Scope nat_scope.

Notation fval := FloatBase.val.
Notation fout := (option (float * list (option nat))).

Section Loop.
Variable expf : float -> float.
Variable pick : nat -> list (mstate (T := float)) -> nat.
Variables w_lim nhyp_max : float.
Variables N M : nat.

(** What the loop does with the answers it draws. *)
Fixpoint consume (outs : list fout) (n : nat) (ws : float) (Rm : list float) : res (nat * float * list float) :=
  match outs with
  | [] => OutOfFuel
  | None :: _ => Ok (n, ws, Rm)
  | Some (cost, sol) :: outs =>
      let w := expf (- cost)%float in
      Rm <- fadd_hyp N M w sol Rm;;
      if fstop w_lim nhyp_max w (ws + w)%float (S n) then Ok (S n, (ws + w)%float, Rm)
      else consume outs (S n) (ws + w)%float Rm
  end.

Notation floop := (fhyp_loop expf pick w_lim nhyp_max).

Lemma loop_consume fuel k : forall mu outs n ws Rm, draws floatN pick fuel k mu = Ok outs ->
  floop k fuel N M mu n ws Rm = consume outs n ws Rm.
Proof.
  induction k as [|k IH]; intros mu outs n ws Rm H.
  - inversion H. reflexivity.
  - cbn [draws] in H. cbn [fhyp_loop]. destruct (draw floatN pick fuel mu) as [[o mu']| |]; try discriminate.
    cbn [bind] in *. destruct (draws floatN pick fuel k mu') as [rs| |] eqn:E; try discriminate.
    cbn [bind] in H. inversion H; subst outs. cbn [consume]. destruct o as [[c sol]|]; auto.
    destruct (fadd_hyp N M _ sol Rm) as [Rm'| |]; auto. cbn [bind].
    destruct (fstop _ _ _ _ _); auto.
Qed.

Lemma loop_draws fuel rounds : forall mu n ws Rm r, floop rounds fuel N M mu n ws Rm = r -> r <> OutOfFuel ->
  exists k, draws floatN pick fuel k mu = UB \/
    exists outs, draws floatN pick fuel k mu = Ok outs /\ consume outs n ws Rm = r.
Proof.
  induction rounds as [|rounds IH]; intros mu n ws Rm r H Hr; [simpl in H; congruence|].
  cbn [fhyp_loop] in H. destruct (draw floatN pick fuel mu) as [[o mu']| |] eqn:E.
  - cbn [bind] in H. destruct o as [[c sol]|].
    + assert (H1 : forall rs, draws floatN pick fuel 0 mu' = Ok rs -> draws floatN pick fuel 1 mu = Ok (Some (c, sol) :: rs)).
      { intros rs Hrs. cbn [draws] in *. rewrite E. inversion Hrs. auto. }
      destruct (fadd_hyp N M (expf (- c)%float) sol Rm) as [Rm'| |] eqn:Ea.
      * cbn [bind] in H. destruct (fstop w_lim nhyp_max (expf (- c)%float) (ws + expf (- c)%float)%float (S n)) eqn:Es.
        -- exists 1. right. exists [Some (c, sol)]. split; auto. cbn [consume]. rewrite Ea. cbn [bind]. rewrite Es. auto.
        -- destruct (IH _ _ _ _ _ H Hr) as (k & [Hk|(outs & Hk & Hc)]).
           ++ exists (S k). left. cbn [draws]. rewrite E. cbn [bind]. rewrite Hk. auto.
           ++ exists (S k). right. exists (Some (c, sol) :: outs). split.
              ** cbn [draws]. rewrite E. cbn [bind]. rewrite Hk. auto.
              ** cbn [consume]. rewrite Ea. cbn [bind]. rewrite Es. auto.
      * exists 1. right. exists [Some (c, sol)]. split; auto. cbn [consume]. rewrite Ea. auto.
      * simpl in H. congruence.
    + exists 1. right. exists [None]. split; auto. cbn [draws]. rewrite E. auto.
  - exists 1. left. cbn [draws]. rewrite E. auto.
  - simpl in H. congruence.
Qed.

Lemma floop_mono rounds k fuel mu : forall n ws Rm a,
  floop rounds fuel N M mu n ws Rm = Ok a -> floop (rounds + k) fuel N M mu n ws Rm = Ok a.
Proof.
  revert mu. induction rounds as [|rounds IH]; intros mu n ws Rm a H; [discriminate|].
  cbn [fhyp_loop Nat.add] in *. destruct (draw floatN pick fuel mu) as [[o mu']| |]; cbn [bind] in *; try discriminate.
  destruct o as [[cst sol]|]; auto.
  destruct (fadd_hyp N M (expf (- cst)%float) sol Rm) as [Rm'| |]; cbn [bind] in *; try discriminate.
  destruct (fstop _ _ _ _ _); auto.
Qed.

(** ** The table *)
(** A used hypothesis: its weight as computed, and the assignment. *)
Notation hyp := (float * list nat)%type.
Definition wsum (hs : list hyp) : float := fold_left (fun a h => (a + fst h)%float) hs 0%float.
Definition cell (hs : list hyp) (i j : nat) : float :=
  fold_left (fun a h => if says N i j (snd h) then (a + fst h)%float else a) hs 0%float.
Definition ftable (hs : list hyp) (Rm : list float) : Prop :=
  length Rm = M * (N + 1) /\
  forall i j, i < M -> j <= N -> nth (i * (N + 1) + j) Rm nan = cell hs i j.

Lemma wsum_snoc hs h : wsum (hs ++ [h]) = (wsum hs + fst h)%float.
Proof. unfold wsum. rewrite fold_left_app. auto. Qed.
Lemma cell_snoc hs h i j : cell (hs ++ [h]) i j = if says N i j (snd h) then (cell hs i j + fst h)%float else cell hs i j.
Proof. unfold cell. rewrite fold_left_app. auto. Qed.

Lemma fcell_lt i j : i < M -> j <= N -> i * (N + 1) + j < M * (N + 1).
Proof. intros. nia. Qed.
Lemma fcell_inj i j i' j' : j <= N -> j' <= N -> i * (N + 1) + j = i' * (N + 1) + j' -> i = i' /\ j = j'.
Proof. intros. assert (i = i') by nia. subst. split; lia. Qed.

Lemma fadd_hyp_spec hs Rm w s : ftable hs Rm -> length s = M ->
  wp False (fadd_hyp N M w (map Some s) Rm) (ftable (hs ++ [(w, s)])).
Proof.
  intros [Hlen Hcell] Hs. unfold fadd_hyp.
  eapply wp_conseq.
  { apply (wp_for False M 0 _ (fun k (Rm' : list float) => length Rm' = M * (N + 1) /\
      forall i j, i < M -> j <= N -> nth (i * (N + 1) + j) Rm' nan =
        if i <? k then cell (hs ++ [(w, s)]) i j else cell hs i j)).
    - split; auto.
    - intros k Rm' Hk [Hl Hc]. assert (Hk' : k < M) by lia.
      rewrite (get_ok _ _ (Some 0)) by (rewrite map_length; lia). cbn [bind]. rewrite map_nth.
      set (v := nth k s 0) in *.
      assert (Hsays : forall j, j <= N -> says N k j s = if j <? N then v =? j else v =? N + k).
      { intros j _. reflexivity. }
      assert (Hupd : forall j0, j0 <= N -> (forall j, j <= N -> says N k j s = (j =? j0)) ->
        wp False (x <- get Rm' (k * (N + 1) + j0);; set Rm' (k * (N + 1) + j0) (x + w)%float)
          (fun Rm2 => length Rm2 = M * (N + 1) /\
            forall i j, i < M -> j <= N -> nth (i * (N + 1) + j) Rm2 nan =
              if i <? S k then cell (hs ++ [(w, s)]) i j else cell hs i j)).
      { intros j0 Hj0 Hs0. pose proof (fcell_lt k j0 Hk' Hj0) as Hb.
        rewrite (get_ok _ _ nan) by lia. cbn [bind]. rewrite set_ok by lia. apply wp_ret.
        split; [rewrite upd_length; auto|]. intros i j Hi Hj.
        destruct (Nat.eq_dec (i * (N + 1) + j) (k * (N + 1) + j0)) as [E|Hne].
        - apply fcell_inj in E; auto. destruct E as [-> ->]. rewrite nth_upd_eq by lia.
          rewrite Hc by auto. rewrite Nat.ltb_irrefl.
          replace (k <? S k) with true by (symmetry; apply Nat.ltb_lt; lia).
          rewrite cell_snoc. cbn [fst snd]. rewrite Hs0 by auto. rewrite Nat.eqb_refl. auto.
        - rewrite nth_upd_neq by auto. rewrite Hc by auto.
          destruct (Nat.ltb_spec i k), (Nat.ltb_spec i (S k)); auto; try lia.
          assert (i = k) by lia. subst i. rewrite cell_snoc. cbn [fst snd]. rewrite Hs0 by auto.
          destruct (Nat.eqb_spec j j0); [subst; lia|auto]. }
      destruct (Nat.ltb_spec v N) as [Hv|Hv].
      + apply Hupd; [lia|]. intros j Hj. rewrite Hsays by auto. destruct (Nat.ltb_spec j N).
        * apply eq_true_iff_eq. rewrite !Nat.eqb_eq. split; auto.
        * transitivity false; [|symmetry]; apply Nat.eqb_neq; lia.
      + destruct (Nat.eqb_spec v (N + k)) as [Hvk|Hvk].
        * apply Hupd; [lia|]. intros j Hj. rewrite Hsays by auto. destruct (Nat.ltb_spec j N).
          -- transitivity false; [|symmetry]; apply Nat.eqb_neq; lia.
          -- destruct (Nat.eqb_spec v (N + k)), (Nat.eqb_spec j N); auto; lia.
        * apply wp_ret. split; auto. intros i j Hi Hj. rewrite Hc by auto.
          destruct (Nat.ltb_spec i k), (Nat.ltb_spec i (S k)); auto; try lia.
          assert (i = k) by lia. subst i. rewrite cell_snoc. cbn [fst snd]. rewrite Hsays by auto.
          destruct (Nat.ltb_spec j N).
          -- destruct (Nat.eqb_spec v j); [lia|auto].
          -- destruct (Nat.eqb_spec v (N + k)); [lia|auto]. }
  intros Rm' [Hl Hc]. split; auto. intros i j Hi Hj. rewrite Hc by auto.
  replace (i <? 0 + M) with true by (symmetry; apply Nat.ltb_lt; lia). auto.
Qed.

Lemma ftable_nil : ftable [] (repeat 0%float (M * (N + 1))).
Proof.
  split; [apply repeat_length|]. intros i j Hi Hj.
  rewrite (nth_indep _ nan 0%float) by (rewrite repeat_length; apply fcell_lt; auto). apply nth_repeat.
Qed.

(** ** What the loop uses *)
Variable C : matrix float.
Variable a : Z.
(** The weight is the exponential of minus a number close to the total cost. *)
Definition weighed (h : hyp) : Prop :=
  exists x, fst h = expf (- x)%float /\ fin x /\ (Rabs (fval x - total (pm proj C) (snd h)) <= bpow radix2 (a - 42))%R.

Definition fstopped (hs : list hyp) : Prop :=
  exists pre h, hs = pre ++ [h] /\ fstop w_lim nhyp_max (fst h) (wsum hs) (length hs) = true.

Definition used (hs : list hyp) (a : nat * float * list float) : Prop :=
  let '(n, ws, Rm) := a in n = length hs /\ ws = wsum hs /\ ftable hs Rm.

Lemma consume_spec m os : forall ds hs Rm, Forall2 (danswer C a) os ds -> Forall weighed hs -> ftable hs Rm ->
  (forall d, In d ds -> length d = M) ->
  wp (m = 0) (consume (os ++ repeat None m) (length hs) (wsum hs) Rm)
    (fun r => exists more, used (hs ++ more) r /\ Forall weighed (hs ++ more) /\
       map snd more = firstn (length more) ds /\
       ((0 < m /\ map snd more = ds) \/ fstopped (hs ++ more)) /\
       (forall p, length hs < p < length (hs ++ more) -> ~ fstopped (firstn p (hs ++ more)))).
Proof.
  induction os as [|o os IH]; intros ds hs Rm HF Hw Ht Hd.
  - inversion HF; subst. destruct m as [|m]; simpl; auto. exists []. rewrite app_nil_r. simpl.
    split; auto. split; auto. split; auto. split; [left; split; auto; lia|]. intros; lia.
  - inversion HF as [|? d ? ds' (x & -> & Hx & Hxt) HF']; subst. cbn [app consume].
    set (w := expf (- x)%float). apply wp_bind.
    eapply wp_mono; [apply (fadd_hyp_spec hs Rm w d Ht); apply Hd; simpl; auto|tauto|].
    intros Rm' Ht'. cbv beta.
    assert (Hw' : Forall weighed (hs ++ [(w, d)])).
    { apply Forall_app. split; auto. constructor; auto. exists x. auto. }
    assert (El : length (hs ++ [(w, d)]) = S (length hs)) by (rewrite app_length; simpl; lia).
    assert (Es : (wsum hs + w)%float = wsum (hs ++ [(w, d)])) by (rewrite wsum_snoc; auto).
    rewrite Es, <- El.
    destruct (fstop w_lim nhyp_max w (wsum (hs ++ [(w, d)])) (length (hs ++ [(w, d)]))) eqn:E.
    + apply wp_ret. exists [(w, d)]. split; [split; auto|]. split; auto. split; auto. split.
      * right. exists hs, (w, d). auto.
      * intros p Hp. rewrite El in Hp. lia.
    + eapply wp_conseq; [apply (IH ds' (hs ++ [(w, d)]) Rm' HF' Hw' Ht')|].
      { intros; apply Hd; simpl; auto. }
      intros r (more & H1 & H2 & H3 & H4 & H5). exists ((w, d) :: more).
      rewrite <- app_assoc in H1, H2, H4, H5. cbn [app] in H1, H2, H4, H5.
      split; auto. split; auto. split; [simpl; f_equal; auto|]. split.
      * destruct H4 as [[H4 H6]|H4]; auto. left. split; auto. simpl. f_equal. auto.
      * intros p Hp. destruct (Nat.eq_dec p (S (length hs))) as [->|Hne].
        -- replace (firstn (S (length hs)) (hs ++ (w, d) :: more)) with (hs ++ [(w, d)]).
           ++ intros (pre & h & Eh & Hf). apply app_inj_tail in Eh. destruct Eh as [<- <-].
              cbn [fst] in Hf. congruence.
           ++ rewrite firstn_app. replace (S (length hs) - length hs) with 1 by lia.
              rewrite firstn_all2 by lia. auto.
        -- apply H5. rewrite El. lia.
Qed.
End Loop.

(** ** The whole loop *)
Section Whole.
Variable expf : float -> float.
Variable pick : nat -> list (mstate (T := float)) -> nat.
Variables w_lim nhyp_max : float.
Variable N : nat.
Variable C : matrix float.
Variable a : Z.
Hypothesis Ha : (-900 <= a <= 299)%Z.
Hypothesis HC : bounded_matrix a C.
Hypothesis Hrows : m_rows C <= 30.
Hypothesis Hcols : (Z.of_nat (m_cols C) < 100000)%Z.
Hypothesis Hord : m_ord C = RowMajor.
Hypothesis Hr0 : 0 < m_rows C.
Hypothesis Hc0 : 0 < m_cols C.
Hypothesis Hpick : forall tick q, q <> [] -> pick tick q < length q.
Notation T := (pm proj C).

(** The hypotheses used: different feasible assignments, all of them unless the loop
    was stopped, and not more than it takes to stop. *)
Record chosen (hs : list (float * list nat)) : Prop := {
  ch_w : Forall (weighed expf C a) hs;
  ch_f : forall s, In s (map snd hs) -> feasible T s;
  ch_nd : NoDup (map snd hs);
  ch_stop : (forall s, feasible T s -> In s (map snd hs)) \/ fstopped w_lim nhyp_max hs;
  ch_min : forall p, 0 < p < length hs -> ~ fstopped w_lim nhyp_max (firstn p hs) }.

Definition fassociate (fuel : nat) : res (nat * float * list float) :=
  mu <- murty_new floatN C;;
  fhyp_loop expf pick w_lim nhyp_max fuel fuel N (m_rows C) mu 0 0%float (repeat 0%float (m_rows C * (N + 1))).

Lemma consume_ranking k outs : dranking C a k outs ->
  wp True (consume expf w_lim nhyp_max N (m_rows C) outs 0 0%float (repeat 0%float (m_rows C * (N + 1))))
    (fun r => exists hs, used N (m_rows C) hs r /\ chosen hs).
Proof.
  intros (ds & os & H1 & -> & H3 & H4 & H5 & H6).
  eapply wp_mono; [apply (consume_spec expf pick w_lim nhyp_max N (m_rows C) C a (k - length ds) os ds [] _ H3)| |].
  - constructor.
  - apply ftable_nil.
  - intros d Hd. apply H4 in Hd. apply Hd.
  - auto.
  - intros r (more & Hu & Hw & Hm & Hs & Hp). cbn [app] in *. exists more. split; auto.
    assert (Hin : forall s, In s (map snd more) -> In s ds).
    { intros s Hin. rewrite Hm in Hin. rewrite <- (firstn_skipn (length more) ds). apply in_app_iff. auto. }
    constructor; auto.
    + rewrite Hm. rewrite <- (firstn_skipn (length more) ds) in H5. clear -H5.
      induction (firstn (length more) ds) as [|x l IH]; [constructor|]. simpl in H5. inversion H5; subst. constructor; auto.
      intros Hx. apply H1. apply in_app_iff. auto.
    + destruct Hs as [[Hlt E]|Hs]; auto. left. intros s Hfs. rewrite E. apply H6; auto. lia.
Qed.

Lemma fassociate_spec : spec fassociate (fun r => exists hs, used N (m_rows C) hs r /\ chosen hs).
Proof.
  assert (Hm : forall k, spec (fun fuel => murty_run floatN pick fuel k C) (dranking C a k)).
  { intros k. apply murty_double; auto. }
  unfold fassociate, murty_run in *.
  destruct (murty_new floatN C) as [mu| |] eqn:Emu.
  2:{ destruct (Hm 0) as [_ (f0 & r & H)]. specialize (H f0 (le_n _)). discriminate. }
  2:{ destruct (Hm 0) as [_ (f0 & r & H)]. specialize (H f0 (le_n _)). discriminate. }
  cbn [bind] in *. split.
  - intros fuel. set (r := fhyp_loop _ _ _ _ _ _ _ _ _ _ _ _) at 1.
    destruct r as [x| |] eqn:Er; simpl; auto.
    + destruct (loop_draws expf pick w_lim nhyp_max N (m_rows C) fuel fuel mu 0 0%float _ _ Er ltac:(discriminate)) as (k & [Hk|(outs & Hk & Hc)]).
      * destruct (Hm k) as [H _]. specialize (H fuel). rewrite Hk in H. destruct H.
      * destruct (Hm k) as [H _]. specialize (H fuel). rewrite Hk in H. simpl in H.
        pose proof (consume_ranking k outs H) as Hr. rewrite Hc in Hr. exact Hr.
    + destruct (loop_draws expf pick w_lim nhyp_max N (m_rows C) fuel fuel mu 0 0%float _ _ Er ltac:(discriminate)) as (k & [Hk|(outs & Hk & Hc)]).
      * destruct (Hm k) as [H _]. specialize (H fuel). rewrite Hk in H. destruct H.
      * destruct (Hm k) as [H _]. specialize (H fuel). rewrite Hk in H. simpl in H.
        pose proof (consume_ranking k outs H) as Hr. rewrite Hc in Hr. exact Hr.
  - set (k := S (m_cols C ^ m_rows C)). destruct (Hm k) as [H1 (f0 & outs & H2)].
    assert (Hrank : dranking C a k outs).
    { specialize (H1 f0). rewrite H2 in H1 by auto. exact H1. }
    assert (Hne : exists r, consume expf w_lim nhyp_max N (m_rows C) outs 0 0%float (repeat 0%float (m_rows C * (N + 1))) = Ok r).
    { pose proof Hrank as (ds & os & K1 & K2 & K3 & K4 & K5 & K6).
      assert (Hlt : length ds < k).
      { unfold k. apply Nat.lt_succ_r. rewrite <- (all_lists_length T Hrows Hr0 Hc0). apply NoDup_incl_length; auto.
        intros d Hd. destruct (K4 d Hd) as [(E1 & _ & E2) _]. change (length d = m_rows C) in E1. rewrite <- E1. apply (all_lists_in T Hrows Hr0 Hc0). auto. }
      pose proof (consume_spec expf pick w_lim nhyp_max N (m_rows C) C a (k - length ds) os ds [] (repeat 0%float (m_rows C * (N + 1))) K3) as Hc.
      rewrite <- K2 in Hc. cbn [length] in Hc. change (wsum []) with 0%float in Hc.
      destruct (consume expf w_lim nhyp_max N (m_rows C) outs 0 0%float (repeat 0%float (m_rows C * (N + 1)))) as [r| |].
      - eauto.
      - exfalso. apply Hc; [constructor|apply ftable_nil|]. intros d Hd. apply K4, Hd.
      - exfalso. assert (k - length ds = 0); [|lia]. apply Hc; [constructor|apply ftable_nil|]. intros d Hd. apply K4, Hd. }
    destruct Hne as [r Hr]. exists (Nat.max f0 k), r. intros fuel Hf.
    replace fuel with (k + (fuel - k)) at 1 by lia. apply floop_mono. rewrite <- Hr. apply loop_consume. apply H2. lia.
Qed.
End Whole.
