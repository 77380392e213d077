(** What the theorems on rendering (C114, C115, C116) speak about. *)
From Coq Require Import String.
From Verif Require Import Str Base.
Open Scope string_scope.
Open Scope nat_scope.
Open Scope list_scope.

(** ** UTF-8, as in RFC 3629 *)
Definition surrogate (c : char) : Prop := (55296 <= c <= 57343)%N.
(** The bytes of one character: its value is spread over the bytes, in the shortest form; a surrogate has no bytes. *)
Inductive utf8_char : char -> list N -> Prop :=
| U1 c : (c < 128)%N -> utf8_char c [c]
| U2 x y : (x < 32)%N -> (y < 64)%N -> (128 <= x * 64 + y)%N -> utf8_char (x * 64 + y)%N [192 + x; 128 + y]%N
| U3 x y z : (x < 16)%N -> (y < 64)%N -> (z < 64)%N -> (2048 <= x * 4096 + y * 64 + z)%N -> ~ surrogate (x * 4096 + y * 64 + z)%N ->
    utf8_char (x * 4096 + y * 64 + z)%N [224 + x; 128 + y; 128 + z]%N
| U4 x y z t : (x < 8)%N -> (y < 64)%N -> (z < 64)%N -> (t < 64)%N -> (65536 <= x * 262144 + y * 4096 + z * 64 + t <= 1114111)%N ->
    utf8_char (x * 262144 + y * 4096 + z * 64 + t)%N [240 + x; 128 + y; 128 + z; 128 + t]%N.
(** [l] is the UTF-8 form of [s] *)
Definition utf8 (s : str) (l : list N) : Prop := exists bs, Forall2 utf8_char s bs /\ l = List.concat bs.
(** the strings of Python *)
Definition py_string (s : str) : Prop := Forall (fun c => c <= 1114111)%N s.

(** ** HTML *)
(** the text [s] in a block of the given background *)
Definition wrapped (color : option str) (s : str) : str :=
  match color with
  | None | Some [] => s
  | Some c => lit "<div style='background-color:" ++ c ++ lit "'>" ++ s ++ lit "</div>"
  end.
(** the color contains a percent sign *)
Definition with_percent (color : option str) : Prop := match color with None => False | Some c => In (ch "%") c end.
(** the link to a file *)
Definition link (name : str) : str := lit "<a href='" ++ name ++ lit "' target='_blank'>View</a>".
(** the page around a body *)
Definition page (body : str) : str := lit "<html> <head>  <meta charset='UTF-8'> </head> <body>" ++ body ++ lit "</body></html>".

(** [t] is the part of [s] that begins at the first occurrence of [sub] *)
Definition from_first (sub s t : str) : Prop :=
  exists a b, s = a ++ t /\ t = sub ++ b /\ forall a' b', s = a' ++ sub ++ b' -> List.length a <= List.length a'.

(** ** The program dot *)
(** no text has these bytes *)
Definition undecodable (l : list N) : Prop := forall t, ~ utf8 t l.
(** the command line, graphviz.py:246-248 *)
Definition command (engine : option str) (format : str) : list str :=
  [lit "dot"; lit "-T" ++ format; lit "-K"; match engine with None => lit "dot" | Some e => e end].
(** the text of the two contents beside each other, html.py:40-62 *)
Definition two_columns (contents1 contents2 title title1 title2 : str) : str :=
  let nl := [10%N] in
  let cell t c :=
    lit "                <div style=""width: 50%; padding: 2%; display: table-cell;"">" ++ nl
    ++ lit "                    <b>" ++ t ++ lit "</b>" ++ nl
    ++ lit "                    <pre>" ++ c ++ lit "</pre>" ++ nl
    ++ lit "                </div>" ++ nl in
  nl ++ lit "        " ++ title ++ nl
  ++ lit "        <div style=""display: table; width:100%"">" ++ nl
  ++ lit "            <div style=""display: table-row"">" ++ nl
  ++ cell title1 contents1 ++ cell title2 contents2
  ++ lit "            </div>" ++ nl
  ++ lit "        </div>" ++ nl
  ++ lit "        ".
