(** The texts of the objects.  The proofs are in ReprMain.v. *)
From Coq Require Import List String Ascii NArith DecimalString.
Import ListNotations.
From Verif Require Import JsonSpec Repr ReprSpec ReprProofs ReprMain.
Local Open Scope string_scope.

(** The text of an object is JSON exactly if the numbers of the object are
    finite, and it then reads as the stated value only; the text of an AABBox is
    never JSON. *)
Theorem C97_texts_are_json : forall (T : Type) (show6 show15 : T -> string) (finite : T -> Prop),
  writes finite show6 -> writes finite show15 ->
  (forall g, reads (fin_gauss finite g) (v_gauss show6 show15 g) (repr_gauss show6 show15 g)) /\
  (forall t, reads (fin_gauss finite (rs_g t)) (v_summary show6 show15 t) (repr_summary show6 show15 t)) /\
  (forall r, reads (fin_report finite r) (v_report show15 r) (repr_report show15 r)) /\
  (forall l, reads (Forall (fin_report finite) l) (JArr (map (v_report show15) l)) (repr_reports show15 l)) /\
  (forall c, reads (Forall (fin_gauss finite) c) (v_mix show6 show15 c) (repr_mix show6 show15 c)) /\
  (forall t, reads (fin_target finite t) (v_target show6 show15 t) (repr_target show6 show15 t)) /\
  (forall rs ts, reads (Forall (fin_report finite) rs /\ Forall (fin_target finite) ts) (v_cluster show6 show15 rs ts) (repr_cluster show6 show15 rs ts)) /\
  (forall ts, reads (Forall (fin_target finite) ts) (v_tracker show6 show15 ts) (repr_tracker show6 show15 ts)) /\
  (forall w x, reads (fin_mat finite w /\ fin_mat finite x) (v_pf show15 w x) (repr_pf show15 w x)) /\
  (forall c, reads (fin_mat finite c) (v_bbox show15 c) (repr_bbox show15 c)) /\
  (forall a b c d j, ~ document j (repr_aabbox show6 a b c d)).
Proof. exact @texts_read. Qed.
Print Assumptions C97_texts_are_json.

(** Two trackers with the same text have the same targets: the same labels, the same
    last actions and the same digits of every number. *)
Theorem C97_text_tells_targets : forall (T : Type) (show6 show15 : T -> string) (finite : T -> Prop),
  writes finite show6 -> writes finite show15 ->
  forall ts ts', Forall (fin_target finite) ts ->
  Forall (fun t => Forall (fun g => exists n, shaped n g) (rt_pdf t)) ts ->
  Forall (fun t => Forall (fun g => exists n, shaped n g) (rt_pdf t)) ts' ->
  repr_tracker show6 show15 ts = repr_tracker show6 show15 ts' -> Forall2 (like_target show6 show15) ts ts'.
Proof. exact @same_text. Qed.
Print Assumptions C97_text_tells_targets.

(** Whole numbers and one that is not a number. *)
Definition ex_show (x : option N) : string := match x with Some n => show_unsigned n | None => "nan" end.
Definition ex_finite (x : option N) : Prop := x <> None.
Definition ex_target (w : option N) : rtarget (option N) :=
  mkRT 3 0 corrected (Some 1%N) [mkRG w [[Some 4%N]; [Some 50%N]] [[Some 1%N; Some 0%N]; [Some 0%N; Some 1%N]]].
Example C97_example : writes ex_finite ex_show /\
  repr_tracker ex_show ex_show [ex_target (Some 1%N); ex_target None] =
    "{""targets"":[{""id"":3,""cid"":0,""la"":""c"",""r"":1,""pdf"":{""type"":""GM"",""c"":[{""type"":""G"",""w"":1,""x"":[[4],[50]],""P"":[[1,0],[0,1]]}]}},{""id"":3,""cid"":0,""la"":""c"",""r"":1,""pdf"":{""type"":""GM"",""c"":[{""type"":""G"",""w"":nan,""x"":[[4],[50]],""P"":[[1,0],[0,1]]}]}}]}" /\
  (exists j, document j (repr_tracker ex_show ex_show [ex_target (Some 1%N); ex_target (Some 2%N)])) /\
  (forall j, ~ document j (repr_tracker ex_show ex_show [ex_target (Some 1%N); ex_target None])) /\
  Forall (fin_target ex_finite) [ex_target (Some 1%N)] /\
  Forall (fun t => Forall (fun g => exists n, shaped n g) (rt_pdf t)) [ex_target (Some 1%N)].
Proof.
  assert (W : writes ex_finite ex_show).
  { intros [n|]; [left|right]; (split; [unfold ex_finite; congruence|]); [apply number_dec|cbn; auto]. }
  destruct (C97_texts_are_json _ _ _ _ W W) as (_ & _ & _ & _ & _ & _ & _ & H & _).
  split; auto. split; [reflexivity|]. split.
  - eexists. apply H. split; [|reflexivity]. repeat (constructor; cbn; unfold ex_finite; try discriminate).
  - split; [|split].
    + intros j D. apply H in D. destruct D as [F _]. inversion F as [|? ? _ F1]; subst. inversion F1 as [|? ? F2 _]; subst.
      destruct F2 as [_ F3]. inversion F3 as [|? ? F4 _]; subst. destruct F4 as [F4 _]. apply F4. reflexivity.
    + repeat (constructor; cbn; unfold ex_finite; try discriminate).
    + constructor; [|constructor]. constructor; [|constructor]. exists 2. repeat (constructor; cbn).
Qed.
