(** Vocabulary of C133: the tokens of a regular expression. *)
From Coq Require Import String.
From Verif Require Import Str.
Open Scope string_scope.
Open Scope nat_scope.
Open Scope list_scope.

(** The characters that are white space in Unicode, as Python sees it: tabulations, line feeds, form feed, carriage return,
    the separators U+001C to U+001F, space, next line, no-break space, ogham space, the spaces U+2000 to U+200A, line and
    paragraph separators, narrow no-break space, mathematical space, ideographic space. *)
Definition white (c : char) : Prop :=
  In c [9; 10; 11; 12; 13; 28; 29; 30; 31; 32; 133; 160; 5760; 8192; 8193; 8194; 8195; 8196; 8197; 8198; 8199; 8200; 8201; 8202; 8232; 8233; 8239; 8287; 12288]%N.
Definition spaces (u : str) : Prop := forall c, In c u -> isspace c = true.
Definition digits (u : str) : Prop := u <> [] /\ forall c, In c u -> isdigit c = true.

(** The texts of the operators: a character of [*+?.|()], a repetition, a class of characters, an escape sequence. The
    repetition is [\{\s*\d+(\s*,)?(\s*\d+)?\s*\}], the class is [\[([^]])*\]]. *)
Inductive re_operator : str -> Prop :=
| op_char c : In c (lit "*+?.|()") -> re_operator [c]
| op_repetition sp1 d comma second sp4 :
    spaces sp1 -> digits d -> (comma = [] \/ exists sp2, spaces sp2 /\ comma = sp2 ++ lit ",") ->
    (second = [] \/ exists sp3 d', spaces sp3 /\ digits d' /\ second = sp3 ++ d') -> spaces sp4 ->
    re_operator (lit "{" ++ sp1 ++ d ++ comma ++ second ++ sp4 ++ lit "}")
| op_class u : ~ In (ch "]") u -> re_operator (lit "[" ++ u ++ lit "]")
| op_escape c : In c (lit "abdDfnrsStvwW*+?.|[](){}") -> re_operator (lit "\" ++ [c]).

Inductive piece := Literal (c : char) | Operator (t : str).
Definition text (p : piece) : str := match p with Literal c => [c] | Operator t => t end.

(** Reading from left to right: an operator is taken where there is one, any other character is a literal. *)
Inductive lexing : str -> list piece -> Prop :=
| lexing_end : lexing [] []
| lexing_operator t s l : re_operator t -> lexing s l -> lexing (t ++ s) (Operator t :: l)
| lexing_literal c s l : (forall t rest, re_operator t -> c :: s <> t ++ rest) -> lexing s l -> lexing (c :: s) (Literal c :: l).

(** A piece that ends an operand (all but an opening parenthesis and a bar), a piece that begins one (a
    literal, a class, an opening parenthesis, an escape sequence). *)
Definition ends_operand (p : piece) : Prop := p <> Operator (lit "(") /\ p <> Operator (lit "|").
Definition begins_operand (p : piece) : Prop :=
  match p with Literal _ => True | Operator t => exists u, t = lit "[" ++ u \/ t = lit "(" ++ u \/ t = lit "\" ++ u end.

(** The tokens: the texts of the pieces, with [cat] between a piece that ends an operand and one that begins one. *)
Inductive with_cat (cat : str) : list piece -> list str -> Prop :=
| with_cat_nil : with_cat cat [] []
| with_cat_one p : with_cat cat [p] [text p]
| with_cat_joined p q l r : ends_operand p -> begins_operand q -> with_cat cat (q :: l) r -> with_cat cat (p :: q :: l) (text p :: cat :: r)
| with_cat_apart p q l r : ~ (ends_operand p /\ begins_operand q) -> with_cat cat (q :: l) r -> with_cat cat (p :: q :: l) (text p :: r).

(** The tokens without [cat]: the operators, and the literals between them put together. *)
Inductive grouped : list piece -> list str -> Prop :=
| grouped_nil : grouped [] []
| grouped_operator t l r : grouped l r -> grouped (Operator t :: l) (t :: r)
| grouped_literals u l r : u <> [] -> (forall c l', l <> Literal c :: l') -> grouped l r -> grouped (map Literal u ++ l) (u :: r).
