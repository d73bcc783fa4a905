(** What the texts of the objects say.  Independent of the functions that write
    them. *)
From Coq Require Import List String Ascii NArith DecimalString.
Import ListNotations.
From Verif Require Import JsonSpec Repr.
Local Open Scope string_scope.

(** What a stream writes for numbers: JSON numbers for finite ones, and
    inf, nan, -inf, -nan for the others. *)
Definition writes {T : Type} (finite : T -> Prop) (show : T -> string) : Prop :=
  forall x, finite x /\ number (show x) \/ ~ finite x /\ In (show x) ["inf"; "nan"; "-inf"; "-nan"].

Section Values.
Context {T : Type}.
Variables show6 show15 : T -> string.
Definition dec (n : N) : json := JNum (NilZero.string_of_uint (N.to_uint n)).
(** Rows of numbers; nothing at all if there are no numbers. *)
Definition mat (m : list (list T)) : json :=
  if Nat.eqb (List.length (List.concat m)) 0 then JArr [] else JArr (map (fun r => JArr (map (fun x => JNum (show15 x)) r)) m).
Definition v_gauss (g : rgauss T) : json :=
  JObj [("type", JStr "G"); ("w", JNum (show6 (rg_w g))); ("x", mat (rg_x g)); ("P", mat (rg_P g))].
Definition v_summary (t : rsummary T) : json :=
  JObj [("type", JStr "T"); ("id", dec (rs_id t)); ("w", JNum (show6 (rg_w (rs_g t)))); ("x", mat (rg_x (rs_g t))); ("P", mat (rg_P (rs_g t)))].
Definition v_report (r : rreport T) : json := JObj [("type", JStr "GR"); ("x", mat (rr_x r)); ("P", mat (rr_P r))].
Definition v_mix (c : rmix T) : json := JObj [("type", JStr "GM"); ("c", JArr (map v_gauss c))].
Definition v_action (a : action) : json := JStr match a with predicted => "u" | corrected => "c" | initial => "i" end.
Definition v_target (t : rtarget T) : json :=
  JObj [("id", dec (rt_id t)); ("cid", dec (rt_cid t)); ("la", v_action (rt_la t)); ("r", JNum (show6 (rt_r t))); ("pdf", v_mix (rt_pdf t))].
Definition v_cluster (rs : list (rreport T)) (ts : list (rtarget T)) : json :=
  JObj [("type", JStr "CL"); ("R", JArr (map v_report rs)); ("T", JArr (map v_target ts))].
Definition v_tracker (ts : list (rtarget T)) : json := JObj [("targets", JArr (map v_target ts))].
Definition v_pf (w x : list (list T)) : json := JObj [("type", JStr "PF"); ("w", mat w); ("x", mat x)].
Definition v_bbox (c : list (list T)) : json := JObj [("type", JStr "BBox"); ("c", mat c)].

(** All numbers of an object are finite. *)
Variable finite : T -> Prop.
Definition fin_mat (m : list (list T)) : Prop := Forall (Forall finite) m.
Definition fin_gauss (g : rgauss T) : Prop := finite (rg_w g) /\ fin_mat (rg_x g) /\ fin_mat (rg_P g).
Definition fin_report (r : rreport T) : Prop := fin_mat (rr_x r) /\ fin_mat (rr_P r).
Definition fin_target (t : rtarget T) : Prop := finite (rt_r t) /\ Forall fin_gauss (rt_pdf t).

(** The same digits. *)
Definition like_mat (a b : list (list T)) : Prop := Forall2 (Forall2 (fun x y => show15 x = show15 y)) a b.
Definition like_gauss (a b : rgauss T) : Prop :=
  show6 (rg_w a) = show6 (rg_w b) /\ like_mat (rg_x a) (rg_x b) /\ like_mat (rg_P a) (rg_P b).
Definition like_target (a b : rtarget T) : Prop :=
  rt_id a = rt_id b /\ rt_cid a = rt_cid b /\ rt_la a = rt_la b /\ show6 (rt_r a) = show6 (rt_r b) /\ Forall2 like_gauss (rt_pdf a) (rt_pdf b).
(** The matrices of a Gaussian of [n] states. *)
Definition shaped (n : nat) (g : rgauss T) : Prop :=
  List.length (rg_x g) = n /\ Forall (fun r => List.length r = 1) (rg_x g) /\ List.length (rg_P g) = n /\ Forall (fun r => List.length r = n) (rg_P g).
End Values.

(** The text is JSON exactly if [P], and then it reads as [v] and nothing else. *)
Definition reads (P : Prop) (v : json) (s : string) : Prop := forall j, document j s <-> P /\ j = v.
