(** The texts of the objects: the functions [repr] and [operator<<] of the
    headers, which the Python binding returns from __repr__ (lmb/lmb.cpp:62-156,
    lmb.hpp:484-489).

    What a stream writes for a double is a parameter: [show6] with the stream's own
    precision, [show15] with the precision that Eigen sets for a matrix
    (constants.hpp:6, FullPrecision) and resets afterwards.  Matrices are lists of
    rows. *)
From Coq Require Import List String Ascii NArith DecimalString.
Import ListNotations.
Local Open Scope string_scope.

(** The objects, as far as their texts show them. *)
Record rgauss (T : Type) := mkRG { rg_w : T; rg_x : list (list T); rg_P : list (list T) }.       (* gaussian.hpp:18-20 *)
Record rsummary (T : Type) := mkRS { rs_id : N; rs_g : rgauss T }.                               (* target.hpp:20-30 *)
Definition rmix (T : Type) := list (rgauss T).                                                     (* gm.hpp:27 *)
(** target.hpp:13-17; the value is the character. *)
Inductive action := predicted | corrected | initial.
Record rtarget (T : Type) := mkRT { rt_id : N; rt_cid : N; rt_la : action; rt_r : T; rt_pdf : rmix T }.  (* target.hpp:51-60 *)
Record rreport (T : Type) := mkRR { rr_x : list (list T); rr_P : list (list T) }.               (* report.hpp:12-20 *)
Arguments mkRG {T}. Arguments rg_w {T}. Arguments rg_x {T}. Arguments rg_P {T}.
Arguments mkRS {T}. Arguments rs_id {T}. Arguments rs_g {T}.
Arguments mkRT {T}. Arguments rt_id {T}. Arguments rt_cid {T}. Arguments rt_la {T}. Arguments rt_r {T}. Arguments rt_pdf {T}.
Arguments mkRR {T}. Arguments rr_x {T}. Arguments rr_P {T}.

(** An unsigned integer on a stream. *)
Definition show_unsigned (n : N) : string := NilZero.string_of_uint (N.to_uint n).
(** target.hpp:13-17, 203: char(last_action) *)
Definition show_action (a : action) : string := match a with predicted => "u" | corrected => "c" | initial => "i" end.

(** The loops with the flag [first]: report.hpp:58-66, gm.hpp:147-151, cluster.hpp:226-238,
    lmb.hpp:335-339. *)
Fixpoint listed {A : Type} (sh : A -> string) (first : bool) (l : list A) : string :=
  match l with
  | [] => ""
  | a :: l => (if first then "" else ",") ++ sh a ++ listed sh false l
  end.

Section Repr.
Context {T : Type}.
Variables show6 show15 : T -> string.

(** constants.hpp:6: format(eigenformat).  Eigen writes a matrix without
    coefficients as the prefix and the suffix. *)
Definition fmt_row (r : list T) : string := "[" ++ listed show15 true r ++ "]".
Definition fmt (m : list (list T)) : string :=
  if forallb (fun r => match r with [] => true | _ => false end) m then "[]"
  else "[" ++ listed fmt_row true m ++ "]".

(** gaussian.hpp:150-156 *)
Definition repr_gauss (g : rgauss T) : string :=
  "{""type"":""G"",""w"":" ++ show6 (rg_w g) ++ ",""x"":" ++ fmt (rg_x g) ++ ",""P"":" ++ fmt (rg_P g) ++ "}".
(** target.hpp:33-40 *)
Definition repr_summary (t : rsummary T) : string :=
  "{""type"":""T"",""id"":" ++ show_unsigned (rs_id t) ++ ",""w"":" ++ show6 (rg_w (rs_g t)) ++
  ",""x"":" ++ fmt (rg_x (rs_g t)) ++ ",""P"":" ++ fmt (rg_P (rs_g t)) ++ "}".
(** report.hpp:39-43 *)
Definition repr_report (r : rreport T) : string :=
  "{""type"":""GR"",""x"":" ++ fmt (rr_x r) ++ ",""P"":" ++ fmt (rr_P r) ++ "}".
(** report.hpp:56-66 *)
Definition repr_reports (l : list (rreport T)) : string := "[" ++ listed repr_report true l ++ "]".
(** gm.hpp:145-153 *)
Definition repr_mix (c : rmix T) : string := "{""type"":""GM"",""c"":[" ++ listed repr_gauss true c ++ "]}".
(** target.hpp:200-206 *)
Definition repr_target (t : rtarget T) : string :=
  "{""id"":" ++ show_unsigned (rt_id t) ++ ",""cid"":" ++ show_unsigned (rt_cid t) ++ ",""la"":""" ++ show_action (rt_la t) ++
  """,""r"":" ++ show6 (rt_r t) ++ ",""pdf"":" ++ repr_mix (rt_pdf t) ++ "}".
(** cluster.hpp:225-240 *)
Definition repr_cluster (rs : list (rreport T)) (ts : list (rtarget T)) : string :=
  "{""type"":""CL"",""R"":[" ++ listed repr_report true rs ++ "],""T"":[" ++ listed repr_target true ts ++ "]}".
(** lmb.hpp:333-341 *)
Definition repr_tracker (ts : list (rtarget T)) : string := "{""targets"":[" ++ listed repr_target true ts ++ "]}".
(** pf.hpp:168-173 *)
Definition repr_pf (w x : list (list T)) : string := "{""type"":""PF"",""w"":" ++ fmt w ++ ",""x"":" ++ fmt x ++ "}".
(** bbox.hpp:245-247: BBox *)
Definition repr_bbox (c : list (list T)) : string := "{""type"":""BBox"",""c"":" ++ fmt c ++ "}".
(** bbox.hpp:87-89: AABBox *)
Definition repr_aabbox (min0 min1 max0 max1 : T) : string :=
  "AABBox[[" ++ show6 min0 ++ ", " ++ show6 max0 ++ "], [" ++ show6 min1 ++ ", " ++ show6 max1 ++ "]]".
End Repr.
