(** The tracker's calls: accesses, races, deadlock. *)
From Coq Require Import List Arith Bool Lia.
Import ListNotations.
From Verif Require Import Race RaceProofs Tracker Access.

(** ** Where a command reads and writes *)
Definition within (P : list nat -> bool -> loc -> Prop) (c : cmd loc) : Prop :=
  forall ls w x, In (ls, w, x) (accs c) -> P ls w x.

Section Within.
Variable P : list nat -> bool -> loc -> Prop.
Lemma in_done : within P Done.
Proof. intros ls w x []. Qed.
Lemma in_acc w x : P [] w x -> within P (Acc w x).
Proof. intros H ls w' x' [E|[]]. inversion E; subst. auto. Qed.
Lemma in_seq a b : within P a -> within P b -> within P (Seq a b).
Proof. intros Ha Hb ls w x H. cbn [accs] in H. apply in_app_iff in H. destruct H; auto. Qed.
Lemma in_crit k a : within (fun ls => P (k :: ls)) a -> within P (Crit k a).
Proof. intros Ha ls w x H. cbn [accs] in H. apply in_map_iff in H. destruct H as (((ls', w'), x') & E & H). inversion E; subst. apply (Ha _ _ _ H). Qed.
Lemma in_seqs l : Forall (within P) l -> within P (seqs l).
Proof. intros H ls w x Hx. rewrite accs_seqs in Hx. apply in_flat_map in Hx. destruct Hx as (c & Hc & Hx). rewrite Forall_forall in H. exact (H c Hc _ _ _ Hx). Qed.
Lemma in_each {A} (l : list A) f : (forall x, In x l -> within P (f x)) -> within P (each l f).
Proof. intros H. apply in_seqs, Forall_forall. intros c Hc. apply in_map_iff in Hc. destruct Hc as (x & <- & Hx). auto. Qed.
Lemma in_all {A} (l : list A) f : (forall x, In x l -> within P (f x)) -> within P (all l f).
Proof.
  intros H ls w x Hx. unfold all in Hx. rewrite accs_pars in Hx. apply in_flat_map in Hx. destruct Hx as (c & Hc & Hx).
  apply in_map_iff in Hc. destruct Hc as (y & <- & Hy). exact (H y Hy _ _ _ Hx).
Qed.
End Within.
Lemma within_weaken (P Q : list nat -> bool -> loc -> Prop) c : (forall ls w x, P ls w x -> Q ls w x) -> within P c -> within Q c.
Proof. intros H Hc ls w x Hx. apply H, Hc, Hx. Qed.

Ltac walk tac :=
  match goal with
  | |- within _ (rd _) => apply in_acc; tac
  | |- within _ (wr _) => apply in_acc; tac
  | |- within _ Done => apply in_done
  | |- within _ (Seq _ _) => apply in_seq; walk tac
  | |- within _ (Crit _ _) => apply in_crit; walk tac
  | |- within _ (seqs _) => apply in_seqs; repeat apply Forall_cons; try apply Forall_nil; walk tac
  | |- within _ (each _ _) => apply in_each; intros; walk tac
  | |- within _ (all _ _) => apply in_all; intros; walk tac
  | |- _ => idtac
  end.

(** ** Source programs *)
Section Src.
Lemma src_each {A} n (l : list A) f : (forall x, In x l -> src n (f x)) -> src n (each l f).
Proof. intros H. apply src_seqs, Forall_forall. intros c Hc. apply in_map_iff in Hc. destruct Hc as (x & <- & Hx). auto. Qed.
Lemma src_all {A} n (l : list A) f : (forall x, In x l -> src n (f x)) -> src n (all l f).
Proof. intros H. apply src_pars, Forall_forall. intros c Hc. apply in_map_iff in Hc. destruct Hc as (x & <- & Hx). auto. Qed.
End Src.
Ltac source :=
  match goal with
  | |- src _ (rd _) => exact I
  | |- src _ (wr _) => exact I
  | |- src _ Done => exact I
  | |- src _ (Seq _ _) => split; source
  | |- src _ (Crit _ _) => split; [unfold gil, ttree in *; lia|source]
  | |- src _ (seqs _) => apply src_seqs; repeat apply Forall_cons; try apply Forall_nil; source
  | |- src _ (each _ _) => apply src_each; intros; source
  | |- src _ (all _ _) => apply src_all; intros; source
  | |- src _ (if ?b then _ else _) => destruct b; source
  | |- src _ (match ?o with _ => _ end) => destruct o; source
  | |- _ => auto
  end.

Section Program.
Variable h : shape.

Lemma src_read_pdf n a : src n (read_pdf h a).
Proof. unfold read_pdf. source. Qed.
Lemma src_write_pdf n a : src n (write_pdf h a).
Proof. unfold write_pdf, read_pdf. source. Qed.
Hint Resolve src_read_pdf src_write_pdf : core.
Lemma src_overlap n a j i : src n (overlap h a j i).
Proof. unfold overlap. source. Qed.
Hint Resolve src_overlap : core.
Lemma src_gm_correct n a j r : src n (gm_correct h a j r).
Proof. unfold gm_correct, gaussian_correct. source. Qed.
Hint Resolve src_gm_correct : core.
Lemma src_match n c i a rs : src n (match_target h c i a rs).
Proof. unfold match_target, gm_missed. cbv zeta. source. Qed.
Hint Resolve src_match : core.
Lemma src_correct_target n c i a m : src n (correct_target h c i a m).
Proof. unfold correct_target. source. Qed.
Hint Resolve src_correct_target : core.
Lemma src_put_back n a : src n (put_back h a).
Proof. unfold put_back. source. Qed.
Hint Resolve src_put_back : core.
Lemma src_correct_cluster n c : n <= ttree -> src n (correct_cluster h c).
Proof. intros Hn. unfold correct_cluster, to_local, to_global, take_out. cbv zeta. source. Qed.
Lemma src_clusters_loop n cls : n <= ttree -> src n (clusters_loop h cls).
Proof. intros Hn. unfold clusters_loop. source. apply src_correct_cluster; auto. Qed.
Lemma src_correct_body n found cls : n <= ttree -> src n (correct_body h found cls).
Proof.
  intros Hn. unfold correct_body, birth_loop, birth_report. source; apply src_clusters_loop; auto.
Qed.
Lemma src_predict_body n ts : n <= ttree -> src n (predict_body h ts).
Proof. intros Hn. unfold predict_body, predict_target. source. Qed.
Lemma src_thread_call c : src 0 (thread_call h c).
Proof.
  destruct c; cbn [thread_call]; unfold summary_body, count_body, distance_body, phd_body; source.
  - apply src_predict_body. unfold ttree. lia.
  - apply src_correct_body. unfold ttree. lia.
Qed.
End Program.

Lemma src_threads ths : src 0 (threads ths).
Proof. unfold threads. source. apply src_thread_call. Qed.

(** ** Parallel loops over owners *)
Section Owned.
Variable X : loc -> Prop.
Context {A : Type} (own : A -> loc -> Prop) (ro lk : loc -> Prop).
Variable k : nat.

(** Access by iteration [a]: exempt, its own memory, shared memory that is only
    read, or memory guarded by lock [k]. *)
Definition fits (a : A) (ls : list nat) (w : bool) (x : loc) : Prop :=
  X x \/ own a x \/ (ro x /\ w = false) \/ (lk x /\ In k ls).

Hypothesis own_ro : forall a x, own a x -> ro x -> False.
Hypothesis own_lk : forall a x, own a x -> lk x -> False.
Hypothesis ro_lk : forall x, ro x -> lk x -> False.

Lemma safe_all_owned (l : list A) f :
  (forall a, In a l -> safe X (f a)) -> (forall a, In a l -> within (fits a) (f a)) ->
  ForallOrdPairs (fun a b => forall x, own a x -> own b x -> False) l -> safe X (all l f).
Proof.
  intros Hs Hw Hp. apply safe_pars.
  - apply Forall_forall. intros c Hc. apply in_map_iff in Hc. destruct Hc as (a & <- & Ha). auto.
  - induction Hp as [|a l Ha Hp IH]; cbn [map]; constructor.
    + rewrite Forall_forall in *. intros c Hc. apply in_map_iff in Hc. destruct Hc as (b & <- & Hb).
      intros ls w ls' w' x H1 H2 W N. apply (Hw a (or_introl eq_refl)) in H1. apply (Hw b (or_intror Hb)) in H2.
      destruct H1 as [H1|[H1|[(H1 & ->)|(H1 & K1)]]]; [tauto| | |];
        destruct H2 as [H2|[H2|[(H2 & ->)|(H2 & K2)]]]; try tauto; try (exfalso; eauto; fail); try discriminate.
      exists k. auto.
    + apply IH; intros; [apply Hs|apply Hw]; simpl; auto.
Qed.
End Owned.

Lemma nodup_pairs {A} (own : A -> loc -> Prop) (l : list A) : NoDup l ->
  (forall a b x, In a l -> In b l -> own a x -> own b x -> a = b) -> ForallOrdPairs (fun a b => forall x, own a x -> own b x -> False) l.
Proof.
  intros Hn H. induction Hn as [|a l Ha Hn IH]; constructor.
  - apply Forall_forall. intros b Hb x H1 H2. apply Ha. rewrite (H a b x); simpl; auto.
  - apply IH. intros b c x Hb Hc. apply H; simpl; auto.
Qed.

(** Commands without parallel loops. *)
Section Safe.
Variable X : loc -> Prop.
Lemma safe_each {A} (l : list A) f : (forall a, In a l -> safe X (f a)) -> safe X (each l f).
Proof. intros H. apply safe_seqs, Forall_forall. intros c Hc. apply in_map_iff in Hc. destruct Hc as (a & <- & Ha). auto. Qed.
End Safe.
Ltac safely :=
  match goal with
  | |- safe _ (rd _) => exact I
  | |- safe _ (wr _) => exact I
  | |- safe _ Done => exact I
  | |- safe _ (Seq _ _) => split; safely
  | |- safe _ _ /\ safe _ _ => split; safely
  | |- safe _ (Crit _ _) => cbn [safe]; safely
  | |- safe _ (seqs _) => apply safe_seqs; repeat apply Forall_cons; try apply Forall_nil; safely
  | |- safe _ (each _ _) => apply safe_each; intros; safely
  | |- safe _ (if ?b then _ else _) => destruct b; safely
  | |- safe _ (match ?o with _ => _ end) => destruct o; safely
  | |- _ => auto
  end.
Ltac kinds := [> intros ? []; cbn; tauto | intros ? []; cbn; tauto | intros []; cbn; tauto | | | ].
Ltac pairs := apply nodup_pairs; [apply seq_NoDup|].

Section Correct.
Variable h : shape.
Definition gen (x : loc) : Prop := x = Gen.
Lemma loc_gen x : gen x \/ ~ gen x.
Proof. unfold gen. destruct x; auto; right; discriminate. Qed.
Notation none := (fun _ : loc => False).

Lemma safe_read_pdf X a : safe X (read_pdf h a).
Proof. unfold read_pdf. safely. Qed.
Lemma safe_write_pdf X a : safe X (write_pdf h a).
Proof. unfold write_pdf, read_pdf. safely. Qed.
Hint Resolve safe_read_pdf safe_write_pdf : core.

Ltac leaf := unfold fits, gen; cbn; intuition (subst; auto; try discriminate).

Lemma safe_overlap a j i : safe gen (overlap h a j i).
Proof.
  unfold overlap. safely. apply (safe_all_owned gen (fun _ _ => False) (fun _ => True) none ttree); kinds.
  - intros n _. safely.
  - intros n _. walk leaf.
  - pairs. intros ? ? ? _ _ [].
Qed.
Hint Resolve safe_overlap : core.

Lemma safe_gm_correct a j r : safe gen (gm_correct h a j r).
Proof.
  unfold gm_correct. safely.
  apply (safe_all_owned gen (fun i x => match x with TCandComp _ _ i' | Sample _ _ i' _ => i' = i | _ => False end)
    (fun x => match x with RState _ | SensorObj | TCand _ _ => True | _ => False end) none ttree); kinds.
  - intros i _. unfold gaussian_correct. safely.
  - intros i _. unfold gaussian_correct, overlap. walk leaf.
  - pairs. intros i i' x _ _. destruct x; try tauto; congruence.
Qed.
Hint Resolve safe_gm_correct : core.

Lemma combine_NoDup {A B} (l : list A) (l' : list B) : NoDup l -> NoDup (combine l l').
Proof.
  intros H. revert l'. induction H as [|x l Hx _ IH]; intros [|y l']; simpl; constructor; auto.
  intros Hin. apply in_combine_l in Hin. auto.
Qed.
Lemma combine_fst {A B} (l : list A) (l' : list B) p q : NoDup l -> In p (combine l l') -> In q (combine l l') -> fst p = fst q -> p = q.
Proof.
  intros H. revert l'. induction H as [|x l Hx _ IH]; intros [|y l']; simpl; try tauto. intros [<-|Hp] [<-|Hq] E; auto; cbn [fst] in E.
  - destruct q as [u v]. cbn in E. subst. apply in_combine_l in Hq. tauto.
  - destruct p as [u v]. cbn in E. subst. apply in_combine_l in Hp. tauto.
  - eauto.
Qed.

Lemma safe_match c i a rs : safe gen (match_target h c i a rs).
Proof.
  unfold match_target, gm_missed. cbv zeta. safely.
  apply (safe_all_owned gen (fun jr x => match x with TCand _ j | TCandComp _ j _ | Sample _ j _ _ | Cost _ _ j => j = fst jr | _ => False end)
    (fun x => match x with RState _ | SensorObj | TObj _ | TCands _ | TExist _ => True | _ => False end) none ttree); kinds.
  - intros jr _. safely.
  - intros jr _. unfold gm_correct, gaussian_correct, overlap. walk leaf.
  - apply nodup_pairs; [apply combine_NoDup, seq_NoDup|]. intros p q x Hp Hq H1 H2. apply (combine_fst _ _ p q (seq_NoDup _ _) Hp Hq).
    destruct x; try tauto; congruence.
Qed.
Hint Resolve safe_match : core.

(** What a cluster owns. *)
Definition owns (c : cluster) (x : loc) : Prop :=
  match x with
  | Entry i | Clu i | Work i | Hyp i | Cost i _ _ | Assoc i _ _ => i = cl_id c
  | TObj a | TExist a | TCid a | TPdf a | TComp a _ | TCands a | TCand a _ | TCandComp a _ _ | Sample a _ _ _ => In a (cl_targets c)
  | RState r | RBirth r | RCid r => In r (cl_reports c)
  | _ => False
  end.
Definition ro1 (x : loc) : Prop := x = SensorObj \/ x = Vectors.
Definition lk1 (x : loc) : Prop := x = Tree \/ x = TargetList.
Notation fits1 c := (fits gen owns ro1 lk1 ttree c).

Lemma safe_correct_cluster c : safe gen (correct_cluster h c).
Proof.
  unfold correct_cluster, to_local, to_global, take_out, put_back, correct_target. cbv zeta. safely.
  apply (safe_all_owned gen (fun i x => match x with Assoc _ i' _ => i' = i | _ => False end)
    (fun x => match x with Hyp _ | Work _ => True | _ => False end) none ttree); kinds.
  - intros i _. safely.
  - intros i _. walk leaf.
  - pairs. intros i i' x _ _. destruct x; try tauto; congruence.
Qed.
Hint Resolve safe_correct_cluster : core.

Lemma combine_r {A B} (l : list A) (l' : list B) p : In p (combine l l') -> In (snd p) l'.
Proof. destruct p. apply in_combine_r. Qed.

Lemma within_correct_cluster c : within (fits1 c) (correct_cluster h c).
Proof.
  unfold correct_cluster, to_local, to_global, take_out, put_back, match_target, gm_missed, gm_correct, gaussian_correct, overlap,
    correct_target, write_pdf, read_pdf. cbv zeta.
  walk ltac:(idtac); try destruct (h_stays h _); walk ltac:(idtac);
    repeat match goal with H : In _ (combine _ _) |- _ => apply combine_r in H end;
    unfold fits, gen, ro1, lk1, owns; cbn; auto 10.
Qed.

(** Different clusters share neither id nor targets nor reports. *)
Definition separate (c d : cluster) : Prop :=
  cl_id c <> cl_id d /\ (forall a, In a (cl_targets c) -> ~ In a (cl_targets d)) /\ (forall r, In r (cl_reports c) -> ~ In r (cl_reports d)).

Lemma safe_clusters_loop cls : ForallOrdPairs separate cls -> safe gen (clusters_loop h cls).
Proof.
  intros Hp. apply (safe_all_owned gen owns ro1 lk1 ttree).
  - intros c x H [->| ->]; exact H.
  - intros c x H [->| ->]; exact H.
  - intros x [->| ->] [E|E]; discriminate.
  - intros c _. safely.
  - intros c _. apply in_seqs. repeat apply Forall_cons; try apply Forall_nil; try apply within_correct_cluster;
      apply in_acc; unfold fits, gen, ro1, lk1, owns; cbn; auto 10.
  - induction Hp as [|c l Hc Hp IH]; constructor; auto. rewrite Forall_forall in *. intros d Hd x H1 H2.
    destruct (Hc d Hd) as (Ni & Nt & Nr). destruct x; cbn in H1, H2; first [exact H1 | exact (Nt _ H1 H2) | exact (Nr _ H1 H2) | congruence].
Qed.

Definition ro2 (x : loc) : Prop := match x with RBirth _ | RState _ | RCid _ | SensorObj => True | _ => False end.
Lemma pairs_none {A} (l : list A) : ForallOrdPairs (fun _ _ : A => forall x : loc, False -> False -> False) l.
Proof. induction l; constructor; auto. apply Forall_forall. auto. Qed.

Lemma within_birth {A} r (a : A) : within (fits gen (fun _ _ => False) ro2 (fun x => ~ ro2 x) ttree a) (birth_report h r).
Proof.
  unfold birth_report, write_pdf, read_pdf. walk ltac:(idtac); try (unfold fits; cbn; tauto).
  destruct (h_born h r) as [b|]; walk ltac:(idtac); unfold fits; cbn; intuition.
Qed.

Lemma safe_birth_loop cls : safe gen (birth_loop h cls).
Proof.
  unfold birth_loop. safely. apply (safe_all_owned gen (fun _ _ => False) ro2 (fun x => ~ ro2 x) ttree); auto.
  - intros c _. apply (safe_all_owned gen (fun _ _ => False) ro2 (fun x => ~ ro2 x) ttree); auto.
    + intros r _. unfold birth_report. safely.
    + intros r _. apply within_birth.
    + apply pairs_none.
  - intros c _. apply in_all. intros r _. apply within_birth.
  - apply pairs_none.
Qed.

Lemma safe_correct_body found cls : ForallOrdPairs separate cls -> safe gen (correct_body h found cls).
Proof. intros Hp. unfold correct_body. safely; auto using safe_clusters_loop, safe_birth_loop. Qed.

(** ** Predictions and queries *)
Lemma safe_predict_body ts : NoDup ts -> safe none (predict_body h ts).
Proof.
  intros Hn. unfold predict_body, put_back. safely.
  apply (safe_all_owned none (fun a x => match x with TObj b | TExist b | TPdf b | TComp b _ => b = a | _ => False end)
    (fun x => x = SensorObj) none ttree).
  - intros a x H ->. exact H.
  - auto.
  - auto.
  - intros a _. unfold predict_target. safely.
    apply (safe_all_owned none (fun i x => match x with TComp _ i' => i' = i | _ => False end) none none ttree); auto.
    + intros i _. safely.
    + intros i _. walk ltac:(unfold fits; cbn; auto).
    + pairs. intros i i' x _ _. destruct x; try tauto; congruence.
  - intros a _. unfold predict_target, write_pdf, read_pdf. walk ltac:(unfold fits; cbn; auto).
  - apply nodup_pairs; auto. intros a b x _ _. destruct x; try tauto; congruence.
Qed.

(** Calls other than corrections; predictions of targets that differ. *)
Definition calm (c : tcall) : Prop :=
  match c with CallPredict ts => NoDup ts | CallCorrect _ _ => False | _ => True end.

Lemma safe_calm c : calm c -> safe none (thread_call h c).
Proof.
  destruct c; cbn [calm thread_call]; intros Hc; try tauto; unfold summary_body, count_body, distance_body, phd_body; safely.
  all: try (apply safe_predict_body; auto). all: try (apply safe_read_pdf || apply safe_write_pdf).
Qed.
Lemma within_calm {A} (a : A) c : calm c ->
  within (fits none (fun _ _ => False) (fun x => x = SensorObj) (fun x => x <> SensorObj) ttree a) (thread_call h c).
Proof.
  destruct c; cbn [calm thread_call]; intros Hc; try tauto; unfold predict_body, predict_target, put_back, summary_body, count_body, distance_body, phd_body, write_pdf, read_pdf;
    walk ltac:(idtac); try destruct (h_stays h _); try destruct area; walk ltac:(idtac); unfold fits; cbn; auto;
    right; right; (left; split; reflexivity) || (right; split; [discriminate|auto]).
Qed.
End Correct.

Lemma safe_threads_calm ths : (forall calls hc, In calls ths -> In hc calls -> calm (snd hc)) -> safe (fun _ => False) (threads ths).
Proof.
  intros H. unfold threads. apply (safe_all_owned (fun _ => False) (fun _ _ => False) (fun x => x = SensorObj) (fun x => x <> SensorObj) ttree); auto.
  - intros calls Hc. apply safe_each. intros hc Hh. apply safe_calm. eauto.
  - intros calls Hc. apply in_each. intros hc Hh. apply (within_calm (fst hc) calls). eauto.
  - apply pairs_none.
Qed.

(** ** Races that happen *)
Lemma two_in {A} (l : list A) (a b : A) : In a l -> In b l -> a <> b ->
  (exists l1 l2 l3, l = l1 ++ a :: l2 ++ b :: l3) \/ (exists l1 l2 l3, l = l1 ++ b :: l2 ++ a :: l3).
Proof.
  intros Ha Hb N. apply in_split in Ha. destruct Ha as (l1 & l2 & ->). apply in_app_or in Hb. destruct Hb as [Hb|[E|Hb]].
  - right. apply in_split in Hb. destruct Hb as (m1 & m2 & ->). exists m1, m2, l2. rewrite <- app_assoc. reflexivity.
  - congruence.
  - left. apply in_split in Hb. destruct Hb as (m1 & m2 & ->). exists l1, m1, m2. reflexivity.
Qed.

Lemma poised_each {A} f n (l : list A) g a w x : In a l -> (forall b, src n (g b)) -> poised f (g a) w x -> poised f (each l g) w x.
Proof.
  intros Ha Hs Hp. apply (poised_seqs f n) with (g a); auto.
  - apply Forall_forall. intros c Hc. apply in_map_iff in Hc. destruct Hc as (b & <- & _). auto.
  - apply in_map. auto.
Qed.

Section Happens.
Variable h : shape.
Lemma in_upto n k : k < n -> In k (upto n).
Proof. intros H. apply List.in_seq. lia. Qed.
Lemma in_pairs (l : list nat) a : In a l -> exists i, In (i, a) (combine (upto (length l)) l).
Proof.
  intros H. destruct (In_nth l a 0 H) as (i & Hi & E). exists i.
  replace (i, a) with (nth i (combine (upto (length l)) l) (0, 0)).
  - apply nth_In. rewrite combine_length. unfold upto. rewrite seq_length. lia.
  - rewrite combine_nth by (unfold upto; rewrite seq_length; auto). unfold upto. rewrite seq_nth by auto. rewrite E. reflexivity.
Qed.

Lemma overlap_gen a j i : 1 <= h_samples h -> 1 <= h_draws h -> poised true (overlap h a j i) true Gen.
Proof.
  intros Hs Hd. unfold overlap. apply poised_first. apply (poised_each true 0) with 0; [apply in_upto; lia|intros; source|].
  apply poised_first. apply (poised_each true 0) with 0; [apply in_upto; lia|intros; source|].
  apply (poised_second true 0); [exact I|apply poised_acc].
Qed.

Lemma match_gen c i a rs : 1 <= h_comps h a -> 1 <= h_samples h -> 1 <= h_draws h -> poised true (match_target h c i a rs) true Gen.
Proof.
  intros Hc Hs Hd. pose proof (src_match h 0 c i a rs) as S. unfold match_target in *. cbv zeta in *. apply src_seqs in S.
  apply (poised_seqs true 0) with (gm_missed h a (length rs)); [exact S|simpl; tauto|]. unfold gm_missed. apply poised_first.
  apply (poised_each true 0) with 0; [apply in_upto; lia|intros; source; apply src_overlap|].
  apply (poised_seqs true 0) with (overlap h a (length rs) 0); [|simpl; tauto|apply overlap_gen; auto].
  repeat apply Forall_cons; try apply Forall_nil; source; apply src_overlap.
Qed.

Lemma cluster_gen c a : In a (cl_targets c) -> 1 <= h_comps h a -> 1 <= h_samples h -> 1 <= h_draws h ->
  poised true (correct_cluster h c) true Gen.
Proof.
  intros Ha Hc Hs Hd. pose proof (src_correct_cluster h 0 c ltac:(unfold ttree; lia)) as S.
  unfold correct_cluster in *. cbv zeta in *. apply src_seqs in S.
  eapply (poised_seqs true 0); [exact S|do 4 right; left; reflexivity|].
  destruct (in_pairs _ a Ha) as (i & Hi). apply (poised_each true 0) with (i, a); [exact Hi|intros; source; apply src_match|].
  apply poised_first. apply match_gen; auto.
Qed.

(** A component of a target is written with no lock held. *)
Lemma cluster_writes c a : In a (cl_targets c) -> 1 <= h_comps h a -> poised true (correct_cluster h c) true (TComp a 0).
Proof.
  intros Ha Hc. pose proof (src_correct_cluster h 0 c ltac:(unfold ttree; lia)) as S.
  unfold correct_cluster in *. cbv zeta in *. apply src_seqs in S.
  eapply (poised_seqs true 0); [exact S|do 2 right; left; reflexivity|].
  unfold to_local. eapply (poised_seqs true 0); [|do 4 right; left; reflexivity|].
  { repeat apply Forall_cons; try apply Forall_nil; source; auto using src_read_pdf, src_write_pdf. }
  apply (poised_each true 0) with a; [exact Ha|intros; apply src_write_pdf|]. unfold write_pdf.
  apply (poised_second true 0); [apply src_read_pdf|]. apply poised_first. apply (poised_each true 0) with 0; [apply in_upto; lia|intros; exact I|apply poised_acc].
Qed.

Definition in_loop (c : cluster) : cmd loc :=
  seqs [rd Vectors; wr (Entry (cl_id c)); correct_cluster h c; rd Vectors; rd (Clu (cl_id c)); wr (Entry (cl_id c))].
Lemma src_in_loop c : src 0 (in_loop c).
Proof. unfold in_loop. source. apply src_correct_cluster. unfold ttree. lia. Qed.
Lemma poised_loop c w x : poised true (correct_cluster h c) w x -> poised true (in_loop c) w x.
Proof.
  intros H. pose proof (src_in_loop c) as S. unfold in_loop in *. apply src_seqs in S.
  eapply (poised_seqs true 0); [exact S|do 2 right; left; reflexivity|exact H].
Qed.

Lemma gen_races cls found c d a b : In c cls -> In d cls -> c <> d -> In a (cl_targets c) -> In b (cl_targets d) ->
  1 <= h_comps h a -> 1 <= h_comps h b -> 1 <= h_samples h -> 1 <= h_draws h -> racy (correct_body h found cls) Gen.
Proof.
  intros Hc Hd N Ha Hb Ca Cb Hs Hdr.
  assert (Gc := poised_loop _ _ _ (cluster_gen c a Ha Ca Hs Hdr)). assert (Gd := poised_loop _ _ _ (cluster_gen d b Hb Cb Hs Hdr)).
  pose proof (src_correct_body h 0 found cls ltac:(unfold ttree; lia)) as S. unfold correct_body in *. apply src_seqs in S.
  eapply (racy_seqs 0); [exact S|do 7 right; left; reflexivity|].
  assert (Fs : Forall (src 0) (map in_loop cls)).
  { apply Forall_forall. intros x Hx. apply in_map_iff in Hx. destruct Hx as (e & <- & _). apply src_in_loop. }
  change (clusters_loop h cls) with (pars (map in_loop cls)).
  destruct (two_in cls c d Hc Hd N) as [(l1 & l2 & l3 & ->)|(l1 & l2 & l3 & ->)];
    rewrite map_app in *; cbn [map] in *; rewrite map_app in *; cbn [map] in *.
  - apply (racy_two 0 _ _ _ _ _ true true true true); auto.
  - apply (racy_two 0 _ _ _ _ _ true true true true); auto.
Qed.

Lemma poised_call found cls c a : In c cls -> In a (cl_targets c) -> 1 <= h_comps h a ->
  poised true (thread_call h (CallCorrect found cls)) true (TComp a 0).
Proof.
  intros Hc Ha Ca. cbn [thread_call]. pose proof (src_correct_body h 0 found cls ltac:(unfold ttree; lia)) as S.
  apply (poised_second true 0); [source|]. apply poised_first. unfold correct_body in *. apply src_seqs in S.
  eapply (poised_seqs true 0); [exact S|do 7 right; left; reflexivity|].
  change (clusters_loop h cls) with (pars (map in_loop cls)). apply (poised_pars true 0) with (in_loop c).
  - apply Forall_forall. intros x Hx. apply in_map_iff in Hx. destruct Hx as (e & <- & _). apply src_in_loop.
  - apply in_map. auto.
  - apply poised_loop. apply cluster_writes with (c := c); auto.
Qed.
Lemma poised_summaries area ts a : In a ts -> 1 <= h_comps h a -> poised false (thread_call h (CallSummaries area ts)) false (TComp a 0).
Proof.
  intros Ha Ca. cbn [thread_call]. unfold summary_body. apply poised_crit.
  { source; auto using src_read_pdf. }
  apply poised_crit.
  { source; auto using src_read_pdf. }
  apply (poised_second false 0); [source|]. apply (poised_each false 0) with a; [exact Ha|intros; source; auto using src_read_pdf|].
  apply poised_first. unfold read_pdf. apply (poised_second false 0); [source|]. apply (poised_each false 0) with 0; [apply in_upto; lia|intros; exact I|apply poised_acc].
Qed.
End Happens.

Lemma query_races h h' found cls area ts c a : In c cls -> In a (cl_targets c) -> In a ts -> 1 <= h_comps h a -> 1 <= h_comps h' a ->
  racy (threads [[(h, CallCorrect found cls)]; [(h', CallSummaries area ts)]]) (TComp a 0).
Proof.
  intros Hc Ha Ht C1 C2. unfold threads, all. cbn [map].
  apply (racy_two 0 [] _ [] _ [] true false true false); auto.
  - cbn [app]. repeat apply Forall_cons; try apply Forall_nil; source; apply src_thread_call.
  - apply poised_first. cbn [fst snd]. eapply poised_call; eauto.
  - apply poised_first. cbn [fst snd]. apply poised_summaries; auto.
Qed.
