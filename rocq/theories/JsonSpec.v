(** JSON texts, RFC 8259.  Independent of the model. *)
From Coq Require Import List String Ascii NArith.
Import ListNotations.
Local Open Scope string_scope.

(** Values.  Numbers and strings are given by their texts (escapes are not
    decoded). *)
Inductive json : Type :=
| JNum (s : string)
| JStr (s : string)
| JTrue
| JFalse
| JNull
| JArr (l : list json)
| JObj (l : list (string * json)).

Definition code (c : ascii) : N := N_of_ascii c.
Definition digit (c : ascii) : bool := ((48 <=? code c) && (code c <=? 57))%N%bool.
Definition hex (c : ascii) : bool :=
  (digit c || ((65 <=? code c) && (code c <=? 70)) || ((97 <=? code c) && (code c <=? 102)))%N%bool.
(** Space, tab, line feed, carriage return. *)
Definition white (c : ascii) : bool := ((code c =? 32) || (code c =? 9) || (code c =? 10) || (code c =? 13))%N%bool.
Fixpoint all (p : ascii -> bool) (s : string) : bool :=
  match s with "" => true | String c s => (p c && all p s)%bool end.
Definition ws (s : string) : Prop := all white s = true.

(** Numbers, section 6 of the RFC. *)
Inductive int_part : string -> Prop :=
| int_zero : int_part "0"
| int_digits c s : digit c = true -> c <> "0"%char -> all digit s = true -> int_part (String c s).
Inductive frac_part : string -> Prop :=
| frac_none : frac_part ""
| frac_some c s : digit c = true -> all digit s = true -> frac_part (String "." (String c s)).
Inductive exp_part : string -> Prop :=
| exp_none : exp_part ""
| exp_some e g c s : e = "e"%char \/ e = "E"%char -> g = "" \/ g = "+" \/ g = "-" -> digit c = true -> all digit s = true ->
    exp_part (String e (g ++ String c s)).
Definition number (s : string) : Prop :=
  exists m i f e, s = m ++ i ++ f ++ e /\ (m = "" \/ m = "-") /\ int_part i /\ frac_part f /\ exp_part e.

(** What stands between the quotes of a string, section 7.  34 is the quote, 92 the
    backslash. *)
Definition plain (c : ascii) : bool := (negb (code c <? 32) && negb (code c =? 34) && negb (code c =? 92))%N%bool.
Definition quote : ascii := ascii_of_N 34.
Definition backslash : ascii := ascii_of_N 92.
Inductive chars : string -> Prop :=
| chars_nil : chars ""
| chars_plain c s : plain c = true -> chars s -> chars (String c s)
| chars_esc c s : In c [quote; backslash; "/"%char; "b"%char; "f"%char; "n"%char; "r"%char; "t"%char] -> chars s ->
    chars (String backslash (String c s))
| chars_hex a b c d s : hex a = true -> hex b = true -> hex c = true -> hex d = true -> chars s ->
    chars (String backslash (String "u" (String a (String b (String c (String d s)))))).
Definition quoted (s : string) : string := String quote (s ++ String quote "").

(** Values, arrays, objects. *)
Inductive text : json -> string -> Prop :=
| text_num s : number s -> text (JNum s) s
| text_str s : chars s -> text (JStr s) (quoted s)
| text_true : text JTrue "true"
| text_false : text JFalse "false"
| text_null : text JNull "null"
| text_arr0 w : ws w -> text (JArr []) ("[" ++ w ++ "]")
| text_arr w l s : ws w -> elements l s -> text (JArr l) ("[" ++ w ++ s ++ "]")
| text_obj0 w : ws w -> text (JObj []) ("{" ++ w ++ "}")
| text_obj w l s : ws w -> members l s -> text (JObj l) ("{" ++ w ++ s ++ "}")
with elements : list json -> string -> Prop :=
| el_one j s w : text j s -> ws w -> elements [j] (s ++ w)
| el_more j s w w' l t : text j s -> ws w -> ws w' -> elements l t -> elements (j :: l) (s ++ w ++ "," ++ w' ++ t)
with members : list (string * json) -> string -> Prop :=
| mem_one k w w' j s w2 : chars k -> ws w -> ws w' -> text j s -> ws w2 ->
    members [(k, j)] (quoted k ++ w ++ ":" ++ w' ++ s ++ w2)
| mem_more k w w' j s w2 w3 l t : chars k -> ws w -> ws w' -> text j s -> ws w2 -> ws w3 -> members l t ->
    members ((k, j) :: l) (quoted k ++ w ++ ":" ++ w' ++ s ++ w2 ++ "," ++ w3 ++ t).

(** A JSON text. *)
Definition document (j : json) (s : string) : Prop := exists w t w', s = w ++ t ++ w' /\ ws w /\ text j t /\ ws w'.
