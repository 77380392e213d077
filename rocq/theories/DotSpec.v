(** Reading DOT, the language of Graphviz (https://graphviz.org/doc/info/lang.html).

    The reader accepts a part of the language only: no comment, no subgraph, no port, no chain [a -> b -> c], no negative
    number, no "strict", one list of attributes at most in a statement. What it accepts is DOT with the meaning given here. *)
From Coq Require Import String.
From Verif Require Import Str Graph GraphvizSpec.
From Verif Require Import Base.
Open Scope string_scope.
Open Scope nat_scope.
Open Scope list_scope.

(** ** Tokens *)

(** Unquoted words (names and numbers), strings between quotes, HTML strings, the two arrows, punctuation. *)
Inductive token := TWord (s : str) | TQuoted (s : str) | THtml (s : str) | TArrow | TLine | TSym (c : char).

Definition dot_space (c : char) : bool := mem c [32; 9; 10; 13]%N.
Definition dot_digit (c : char) : bool := ((48 <=? c) && (c <=? 57))%N.
Definition dot_letter (c : char) : bool :=
  (((65 <=? c) && (c <=? 90)) || ((97 <=? c) && (c <=? 122)) || (c =? 95) || (128 <=? c))%N.
Definition dot_alnum (c : char) : bool := dot_letter c || dot_digit c.

(** Where the reader is: between two tokens, in a name, in a number, after the first "-" of an arrow, in a string, after
    a backslash in a string, inside [depth] pairs of angle brackets in an HTML string; with what was read of the token. *)
Inductive mode := MStart | MName (s : str) | MNum (s : str) | MDash | MQuote (s : str) | MBack (s : str) | MHtml (depth : nat) (s : str).

(** [c] begins a token. *)
Definition start (c : char) : option (list token * mode) :=
  if dot_space c then Some ([], MStart)
  else if eqb c (ch """") then Some ([], MQuote [])
  else if eqb c (ch "<") then Some ([], MHtml 0 [])
  else if dot_letter c then Some ([], MName [c])
  else if dot_digit c then Some ([], MNum [c])
  else if eqb c (ch "-") then Some ([], MDash)
  else if mem c (lit "{}[];,=") then Some ([TSym c], MStart)
  else None.
Definition prepend (l : list token) (x : option (list token * mode)) : option (list token * mode) :=
  match x with Some (l', m) => Some (l ++ l', m) | None => None end.
(** The character [c]: the tokens that end, where the reader goes. In a string, a backslash before a quote gives a quote, a backslash before the
    end of a line joins the two lines, and all other backslashes mean themselves. *)
Definition step (m : mode) (c : char) : option (list token * mode) :=
  match m with
  | MStart => start c
  | MName a => if dot_alnum c then Some ([], MName (a ++ [c])) else prepend [TWord a] (start c)
  | MNum a =>
      if dot_digit c || (eqb c (ch ".") && negb (mem c a)) then Some ([], MNum (a ++ [c]))
      else if dot_letter c || eqb c (ch ".") then None else prepend [TWord a] (start c)
  | MDash => if eqb c (ch ">") then Some ([TArrow], MStart) else if eqb c (ch "-") then Some ([TLine], MStart) else None
  | MQuote a =>
      if eqb c (ch """") then Some ([TQuoted a], MStart) else if eqb c (ch "\") then Some ([], MBack a)
      else Some ([], MQuote (a ++ [c]))
  | MBack a =>
      if eqb c (ch """") then Some ([], MQuote (a ++ [c])) else if eqb c 10%N then Some ([], MQuote a)
      else Some ([], MQuote (a ++ [ch "\"; c]))
  | MHtml depth a =>
      if eqb c (ch "<") then Some ([], MHtml (S depth) (a ++ [c]))
      else if eqb c (ch ">") then
        match depth with 0 => Some ([THtml a], MStart) | S depth' => Some ([], MHtml depth' (a ++ [c])) end
      else Some ([], MHtml depth (a ++ [c]))
  end.
Fixpoint run_lexer (m : mode) (s : str) : option (list token * mode) :=
  match s with
  | [] => Some ([], m)
  | c :: s' => match step m c with Some (l, m') => prepend l (run_lexer m' s') | None => None end
  end.
Definition tokens (s : str) : option (list token) :=
  match run_lexer MStart s with
  | Some (l, MStart) => Some l
  | Some (l, (MName a | MNum a)) => Some (l ++ [TWord a])
  | _ => None
  end.

(** ** Statements *)

(** An identifier: a name, a number or a string (the quotes make no difference), or an HTML string. *)
Inductive ident := Name (s : str) | Html (s : str).
(** The keywords, whatever the case. *)
Definition lower (c : char) : char := if ((65 <=? c) && (c <=? 90))%N then (c + 32)%N else c.
Definition keyword (s : str) : bool :=
  mem (map lower s) (map lit ["node"; "edge"; "graph"; "digraph"; "subgraph"; "strict"]).
Definition ident_of (t : token) : option ident :=
  match t with
  | TWord s => if keyword s then None else Some (Name s)
  | TQuoted s => Some (Name s)
  | THtml s => Some (Html s)
  | _ => None
  end.

Definition attributes := list (ident * ident).
Inductive kind := KGraph | KNode | KEdge.
(** [kind [...]] gives default attributes; [id [...]]; [id -> id [...]] or [id -- id [...]]; [id = id] *)
Inductive statement := SDefault (k : kind) (a : attributes) | SNode (u : ident) (a : attributes)
  | SEdge (u v : ident) (a : attributes) | SSet (k v : ident).

Definition is_sym (c : char) (t : token) : bool := match t with TSym d => eqb c d | _ => false end.
Definition is_arc (directed : bool) (t : token) : bool := match t with TArrow => directed | TLine => negb directed | _ => false end.
(** After "[": the attributes up to "]", each one followed by an optional ";" or ",", and what remains. *)
Fixpoint read_attributes (l : list token) : option (attributes * list token) :=
  match l with
  | [] => None
  | t :: l1 =>
      if is_sym (ch "]") t then Some ([], l1)
      else match l1 with
           | t2 :: v :: l2 =>
               if is_sym (ch "=") t2 then
                 match ident_of t, ident_of v with
                 | Some k, Some v =>
                     match
                       match l2 with
                       | sep :: l3 => if is_sym (ch ";") sep || is_sym (ch ",") sep then read_attributes l3 else read_attributes l2
                       | [] => None
                       end
                     with Some (a, r) => Some ((k, v) :: a, r) | None => None end
                 | _, _ => None
                 end
               else None
           | _ => None
           end
  end.
(** An optional list of attributes. *)
Definition read_list (l : list token) : option (attributes * list token) :=
  match l with
  | t :: l' => if is_sym (ch "[") t then read_attributes l' else Some ([], l)
  | [] => Some ([], [])
  end.
Definition read_kind (t : token) : option kind :=
  match t with
  | TWord s =>
      let s := map lower s in
      if eqb s (lit "graph") then Some KGraph else if eqb s (lit "node") then Some KNode else if eqb s (lit "edge") then Some KEdge else None
  | _ => None
  end.
Definition read_statement (directed : bool) (l : list token) : option (statement * list token) :=
  match l with
  | [] => None
  | t :: l1 =>
      match read_kind t with
      | Some k =>
          match l1 with
          | b :: l2 =>
              if is_sym (ch "[") b then match read_attributes l2 with Some (a, r) => Some (SDefault k a, r) | None => None end else None
          | [] => None
          end
      | None =>
          match ident_of t with
          | None => None
          | Some u =>
              match l1 with
              | op :: v :: l2 =>
                  if is_arc directed op then
                    match ident_of v, read_list l2 with Some v, Some (a, r) => Some (SEdge u v a, r) | _, _ => None end
                  else if is_sym (ch "=") op then match ident_of v with Some v => Some (SSet u v, l2) | None => None end
                  else match read_list l1 with Some (a, r) => Some (SNode u a, r) | None => None end
              | _ => match read_list l1 with Some (a, r) => Some (SNode u a, r) | None => None end
              end
          end
      end
  end.
(** The statements up to the closing brace, which ends the text; each statement is followed by an optional ";". A
    statement takes one token at least. *)
Fixpoint read_statements (fuel : nat) (directed : bool) (l : list token) : option (list statement) :=
  match fuel with
  | 0 => None
  | S fuel' =>
      match l with
      | [t] => if is_sym (ch "}") t then Some [] else None
      | _ =>
          match read_statement directed l with
          | None => None
          | Some (s, r) =>
              match read_statements fuel' directed (match r with t :: r' => if is_sym (ch ";") t then r' else r | [] => r end) with
              | Some ss => Some (s :: ss)
              | None => None
              end
          end
      end
  end.

Record dot := Dot { dot_directed : bool; dot_name : option ident; dot_statements : list statement }.
Definition dot_read (s : str) : option dot :=
  match tokens s with
  | Some (TWord g :: l) =>
      let body directed name l :=
        match l with
        | b :: l' => if is_sym (ch "{") b then option_map (Dot directed name) (read_statements (List.length l') directed l') else None
        | [] => None
        end in
      let header directed :=
        match l with
        | t :: l' => match ident_of t with Some name => body directed (Some name) l' | None => body directed None l end
        | [] => None
        end in
      if eqb (map lower g) (lit "digraph") then header true else if eqb (map lower g) (lit "graph") then header false else None
  | _ => None
  end.

(** ** Statements about numbered vertices *)

(** The value of a decimal number. *)
Definition number (s : str) : nat := fold_left (fun n c => 10 * n + (N.to_nat c - 48)) s 0.
Definition numbered (x : ident) : option nat :=
  match x with Name (c :: s) => if forallb dot_digit (c :: s) then Some (number (c :: s)) else None | _ => None end.
(** The attributes that an item should have: the value of [label] is its escaped text (see [escapes]), the other values are copied,
    the attributes without value are absent. *)
Inductive attributes_of {X} (x : X) : list (str * (X -> option str)) -> attributes -> Prop :=
| at_nil : attributes_of x [] []
| at_none k p d a : p x = None -> attributes_of x d a -> attributes_of x ((k, p) :: d) a
| at_label p v l d a : p x = Some v -> escapes v l -> attributes_of x d a ->
    attributes_of x ((lit "label", p) :: d) ((Name (lit "label"), Html (concat (map snd l))) :: a)
| at_some k p v d a : k <> lit "label" -> p x = Some v -> attributes_of x d a ->
    attributes_of x ((k, p) :: d) ((Name k, Name v) :: a).

(** ** Which names and values are safe *)

(** A name that needs no quotes. *)
Definition dot_key (k : str) : Prop :=
  exists c s, k = c :: s /\ dot_letter c = true /\ forallb dot_alnum s = true /\ keyword k = false.
(** A value that means itself between quotes: no quote, and each backslash is followed by a character other than a quote
    and the end of a line. *)
Inductive dot_value : str -> Prop :=
| dv_nil : dot_value []
| dv_char c s : c <> ch """" -> c <> ch "\" -> dot_value s -> dot_value (c :: s)
| dv_back c s : c <> ch """" -> c <> 10%N -> dot_value s -> dot_value (ch "\" :: c :: s).
(** A label: no "<" inside a tag. *)
Definition dot_label (v : str) : Prop := forall l t, escapes v l -> In (true, t) l -> ~ In (ch "<") (tl t).

(** Statements given as a text [s], without the ";" of the last one; nothing at all is possible. *)
Definition dot_style (d : bool) (s : str) (ss : list statement) : Prop :=
  dot_read ((if d then lit "digraph {" else lit "graph {") ++ s ++ lit ";}") = Some (Dot d None ss).
Definition optional_style (d : bool) (s : str) (ss : list statement) : Prop := (s = [] /\ ss = []) \/ dot_style d s ss.
(** Default attributes *)
Definition default_statements (k : kind) (l : list (str * str)) : list statement :=
  match l with [] => [] | _ => [SDefault k (map (fun '(k, v) => (Name k, Name v)) l)] end.
(** The style of PyBGL *)
Definition names : list (string * string) -> list (str * str) := map (fun '(k, v) => (lit k, lit v)).
Definition pybgl_style : list statement :=
  default_statements KGraph (names [("fontcolor", "black"); ("bgcolor", "transparent"); ("rankdir", "LR")]) ++
  default_statements KNode (names [("color", "black"); ("fontcolor", "black"); ("fillcolor", "transparent"); ("shape", "circle")]) ++
  default_statements KEdge (names [("color", "black"); ("fontcolor", "black")]).
