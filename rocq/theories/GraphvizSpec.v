(** Specification of the escaping of labels and of the round trip through dot strings. *)
From Coq Require Import String.
From Verif Require Import Str Graph Graphviz.
From Verif Require Import Base.
Open Scope string_scope.
Open Scope nat_scope.
Open Scope list_scope.

(** ** Recognised HTML tags *)

(** The elements that may be opened, and those that may be closed. *)
Definition opening : list str := map lit
  ["b"; "br"; "br/"; "font"; "hr"; "i"; "img"; "o"; "s"; "sub"; "sup"; "table"; "td"; "tr"; "u"; "vr"].
Definition closing : list str := map lit
  ["b"; "font"; "hr"; "i"; "img"; "o"; "s"; "sub"; "sup"; "table"; "td"; "tr"; "u"; "vr"].

(** Equality up to the case with an ASCII letter in lower case (or "/"); dotted I, dotless i and long s are the only
    other characters with an ASCII letter as case variant among the letters of the tags. *)
Definition same_letter (c a : char) : Prop :=
  c = a \/ ((65 <= c <= 90)%N /\ (c + 32)%N = a) \/ (a = ch "i" /\ (c = 304%N \/ c = 305%N)) \/ (a = ch "s" /\ c = 383%N).
Definition same_name (s name : str) : Prop := Forall2 same_letter s name.
Definition spaces (s : str) : Prop := Forall (fun c => isspace c = true) s.

(** For example [<b>], [<br/>], [<font color="red">] and [< /B >], but neither [< / b>] nor [<a>]. *)
Inductive html_tag : str -> Prop :=
| tag_open ws s name rest : spaces ws -> In name opening -> same_name s name ->
    (rest = [] \/ exists c r, rest = c :: r /\ isspace c = true /\ ~ In (ch ">") r) ->
    html_tag (lit "<" ++ ws ++ s ++ rest ++ lit ">")
| tag_close ws s name ws' : spaces ws -> In name closing -> same_name s (lit "/" ++ name) -> spaces ws' ->
    html_tag (lit "<" ++ ws ++ s ++ ws' ++ lit ">").

(** ** Escaping *)

Definition special (c : char) : Prop := In c (lit "&<>[]{}") \/ (c < 32)%N.

(** What replaces each special character: HTML character codes for the punctuation, backslash sequences for the
    control characters. *)
Definition hex : str := lit "0123456789abcdef".
Definition code_of (c : char) : str :=
  if eqb c 10%N then lit "\n" else if eqb c 9%N then lit "\t" else if eqb c 13%N then lit "\r"
  else if (c <? 32)%N then lit "\x" ++ [nth (N.to_nat (c / 16)) hex 0%N; nth (N.to_nat (c mod 16)) hex 0%N] ++ lit ";"
  else if eqb c (ch "&") then lit "&#38;" else if eqb c (ch "<") then lit "&#60;" else if eqb c (ch ">") then lit "&#62;"
  else if eqb c (ch "[") then lit "&#91;" else if eqb c (ch "]") then lit "&#93;" else if eqb c (ch "{") then lit "&#123;"
  else lit "&#125;".

(** [escapes s l]: reading [s] from left to right gives the output pieces [l]: copied tags ([true]) and translated
    characters ([false]). A tag is recognised as soon as possible. *)
Inductive escapes : str -> list (bool * str) -> Prop :=
| esc_nil : escapes [] []
| esc_tag t s l : html_tag t -> escapes s l -> escapes (t ++ s) ((true, t) :: l)
| esc_special c s l : (forall t r, c :: s = t ++ r -> ~ html_tag t) -> special c -> escapes s l ->
    escapes (c :: s) ((false, code_of c) :: l)
| esc_plain c s l : ~ special c -> escapes s l -> escapes (c :: s) ((false, [c]) :: l).

(** ** Dot strings *)

(** The characters that end a line for str.splitlines. *)
Definition one_line (s : str) : Prop := forall c, In c s -> ~ In c [10; 11; 12; 13; 28; 29; 30; 133; 8232; 8233]%N.
(** A style: on one line, the first visible character of which is not a digit. *)
Definition style_ok (s : str) : Prop := one_line s /\
  forall ws c r, s = ws ++ c :: r -> spaces ws -> isspace c = false -> ~ In c (lit "0123456789").
(** Same graph up to the renaming [f] of the vertices (and of parallel edges) *)
Definition ends (e : gedge) : nat * nat := (source e, target e).
Definition renamed (f : nat -> nat) (V : list nat) (E : list gedge) (V' : list nat) (E' : list gedge) : Prop :=
  (forall u v, In u V -> In v V -> f u = f v -> u = v) /\ V' = map f V /\
  Permutation (map ends E') (map (fun e => (f (source e), f (target e))) E).

(** Attribute values: a label may also contain line breaks below 32, provided that it has no markup. *)
Definition value_ok (key value : str) : Prop := one_line value \/
  (key = lit "label" /\ ~ In (ch "<") value /\ forall c, In c value -> ~ In c [133; 8232; 8233]%N).
Definition pairs_ok (d : list (str * str)) : Prop := forall k v, In (k, v) d -> one_line k /\ one_line v.
Definition attrs_ok {X} (d : list (str * (X -> option str))) (l : list X) : Prop := forall k p, In (k, p) d ->
  one_line k /\ forall x v, In x l -> p x = Some v -> value_ok k v.
Definition args_ok (V : list nat) (E : list gedge) (o : dot_args) : Prop :=
  match graphviz_style o with Some s => style_ok s | None => True end /\ style_ok (extra_style o) /\
  pairs_ok (dg o) /\ pairs_ok (dv o) /\ pairs_ok (de o) /\ attrs_ok (dpv o) V /\ attrs_ok (dpe o) E.
