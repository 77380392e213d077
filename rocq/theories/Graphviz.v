(** Model of src/pybgl/graphviz_impl.py (escaping and to_dot) and of read_graphviz in src/pybgl/graphviz.py.

    Not modelled: GraphvizOptsParser (graphviz.py:19-41, an HTMLParser fed with the options of a line), whose results
    are passed to the methods on_install_vertex_property and on_install_edge_property of ReadGraphvizVisitor, which do
    nothing; running the program dot; the vertex_to_str argument of to_dot (it is [str]). *)
From Coq Require Import String Decimal DecimalString.
From Verif Require Import Str ShuntingYard Regexp Graph.
From Verif Require Import Base.
Open Scope string_scope.
Open Scope nat_scope.
Open Scope list_scope.

(** ** Escaping *)

(** GRAPHVIZ_SUPPORTED_HTML_TAGS, graphviz_impl.py:120-124. A Python set: the order of the alternatives built from it
    in GRAPHVIZ_HTML_TOKENIZER is not specified, hence the functions below take the tags in any order. *)
Definition GRAPHVIZ_SUPPORTED_HTML_TAGS : list str :=
  [lit "b"; lit "/b"; lit "br"; lit "br/"; lit "font"; lit "/font"; lit "hr"; lit "/hr"; lit "i"; lit "/i";
   lit "img"; lit "/img"; lit "o"; lit "/o"; lit "s"; lit "/s"; lit "sub"; lit "/sub"; lit "sup"; lit "/sup";
   lit "table"; lit "/table"; lit "td"; lit "/td"; lit "tr"; lit "/tr"; lit "u"; lit "/u"; lit "vr"; lit "/vr"].

(** re.IGNORECASE (graphviz_impl.py:134), for a comparison with an ASCII lower case letter or with "/": upper case letters, and
    the three other characters that the module re identifies with "i" and "s". *)
Definition ignorecase (c : char) : char :=
  if ((65 <=? c) && (c <=? 90))%N then (c + 32)%N
  else if mem c [304; 305]%N then ch "i" else if eqb c 383%N then ch "s" else c.

(** What remains of [s] after a prefix equal to [tag] up to the case (the regular expressions of graphviz_impl.py:127-133). *)
Fixpoint match_name (tag s : str) : option str :=
  match tag, s with
  | [], _ => Some s
  | a :: tag', c :: s' => if eqb (ignorecase c) a then match_name tag' s' else None
  | _ :: _, [] => None
  end.

(** What remains of [s] after its prefix [\s*>] (graphviz_impl.py:128). *)
Definition match_close (s : str) : option str :=
  match skip_spaces s with c :: s' => if eqb c (ch ">") then Some s' else None | [] => None end.

(** The alternative of GRAPHVIZ_HTML_TOKENIZER for a tag, graphviz_impl.py:127-131: [<\s*tag\s*>], or [<\s*tag A?\s*>] where [A] is [\s[^>]*];
    what remains of [s] after the match. The greedy optional part is tried first, then dropped; giving back
    characters of [\s*] or [[^>]*] never allows another match, as "<", the names and ">" contain no space, and
    [[^>]*] stops at the first ">". *)
Definition match_tag (tag s : str) : option str :=
  match s with
  | c :: s1 =>
      if eqb c (ch "<") then
        match match_name tag (skip_spaces s1) with
        | None => None
        | Some s2 =>
            if eqb (hd 0%N tag) (ch "/") then match_close s2
            else match s2 with
                 | d :: s3 =>
                     if isspace d then
                       match match_close (snd (span (fun x => negb (eqb x (ch ">"))) s3)) with
                       | Some s4 => Some s4
                       | None => match_close s2
                       end
                     else match_close s2
                 | [] => match_close s2
                 end
        end
      else None
  | [] => None
  end.

(** GRAPHVIZ_HTML_TOKENIZER, graphviz_impl.py:126-135: the first alternative that matches; the length of the match. *)
Fixpoint match_html (tags : list str) (s : str) : option nat :=
  match tags with
  | [] => None
  | tag :: tags' =>
      match match_tag tag s with
      | Some r => Some (List.length s - List.length r)
      | None => match_html tags' s
      end
  end.

(** GRAPHVIZ_MAP_CHAR_ESCAPED, graphviz_impl.py:141-152 *)
Definition GRAPHVIZ_MAP_CHAR_ESCAPED : dict char str :=
  [(ch "&", lit "&#38;"); (ch "<", lit "&#60;"); (ch ">", lit "&#62;"); (10%N, lit "\n"); (9%N, lit "\t");
   (13%N, lit "\r"); (ch "[", lit "&#91;"); (ch "]", lit "&#93;"); (ch "{", lit "&#123;"); (ch "}", lit "&#125;")].

(** A digit of [%02x] *)
Definition hex_digit (n : N) : char := if (n <? 10)%N then (48 + n)%N else (87 + n)%N.

(** graphviz_escape_char, graphviz_impl.py:155-168 *)
Definition graphviz_escape_char (a : char) : str :=
  match dget GRAPHVIZ_MAP_CHAR_ESCAPED a with
  | Some escaped => escaped
  | None => if (a <? 32)%N then lit "\x" ++ [hex_digit (a / 16)%N; hex_digit (a mod 16)%N] ++ lit ";" else [a]
  end.

(** EscapeHtmlTokenizeVisitor, graphviz_impl.py:171-183, on the events of tokenize *)
Definition escape_event (e : event char) : str :=
  match e with
  | OnUnmatched unmatched _ _ => flat_map graphviz_escape_char unmatched
  | OnMatched matched _ _ => matched
  end.

(** graphviz_escape_html, graphviz_impl.py:186-198 *)
Definition graphviz_escape_html (tags : list str) (s : str) : str :=
  flat_map escape_event (tokenize (finditer (match_html tags) s) s).

(** ** to_dot *)

(** sep.join(l) (e.g. graphviz_impl.py:222, 265, 436) *)
Fixpoint join (sep : str) (l : list str) : str :=
  match l with [] => [] | [x] => x | x :: l' => x ++ sep ++ join sep l' end.

(** str(u) on a natural number (graphviz_impl.py:413-414) *)
Definition str_nat (n : nat) : str := lit (NilEmpty.string_of_uint (Nat.to_uint n)).

(** GraphvizStyle.attributes_to_dot (graphviz_impl.py:77-96) and graphviz_dx_to_dot (graphviz_impl.py:294-302): same body. [None] is the
    empty dictionary. The assertion on the prefix holds for the three calls of to_dot. *)
Definition graphviz_dx_to_dot (prefix : str) (dx : list (str * str)) : str :=
  match dx with
  | [] => []
  | _ => prefix ++ lit " [" ++ join (lit "; ") (map (fun '(k, v) => k ++ lit "=""" ++ v ++ lit """") dx) ++ lit "]"
  end.

(** GraphvizStyle, graphviz_impl.py:36-51 and __str__ (graphviz_impl.py:98-111), before any call to set_fg_color and set_bg_color;
    default_graphviz_style, graphviz_impl.py:230-238. *)
Definition default_graphviz_style : str :=
  join (lit "; ")
    [graphviz_dx_to_dot (lit "graph") [(lit "fontcolor", lit "black"); (lit "bgcolor", lit "transparent"); (lit "rankdir", lit "LR")];
     graphviz_dx_to_dot (lit "node") [(lit "color", lit "black"); (lit "fontcolor", lit "black");
                                      (lit "fillcolor", lit "transparent"); (lit "shape", lit "circle")];
     graphviz_dx_to_dot (lit "edge") [(lit "color", lit "black"); (lit "fontcolor", lit "black")]].

(** The optional arguments of to_dot; the absent dictionaries are empty, an absent extra_style is the empty string.
    [D]: the distinguisher of an EdgeDescriptor, a number for the graphs, a symbol for the automata (graphviz_impl.py:364-376). *)
Record dot_args_of (D : Type) := DotArgs {
  dg : list (str * str); extra_style : str; dv : list (str * str); de : list (str * str);
  dpv : list (str * (nat -> option str)); dpe : list (str * (edge D -> option str)); graphviz_style : option str }.
Arguments dg {D} _. Arguments extra_style {D} _. Arguments dv {D} _. Arguments de {D} _.
Arguments dpv {D} _. Arguments dpe {D} _. Arguments graphviz_style {D} _. Arguments DotArgs {D}.
Notation dot_args := (dot_args_of nat).

Section ToDot.
  (** the order of the tags in GRAPHVIZ_HTML_TOKENIZER *)
  Variable tags : list str.

  (** graphviz_properties_to_str, graphviz_impl.py:207-227. [dpx]: attribute -> property map; [pmap x] is the string of the value
      [pmap[x]] or [None] if this value is None (a simplification: the maps do not raise). [None] for [dpx] is the
      empty dictionary. *)
  Definition graphviz_properties_to_str {X} (x : X) (dpx : list (str * (X -> option str))) : str :=
    match dpx with
    | [] => []
    | _ =>
        lit "[" ++ join (lit "; ") (flat_map (fun '(k, pmap) =>
          match pmap x with
          | None => []
          | Some v => [if eqb k (lit "label") then k ++ lit "=<" ++ graphviz_escape_html tags v ++ lit ">"
                       else k ++ lit "=""" ++ v ++ lit """"]
          end) dpx) ++ lit "]"
    end.

  (** vertex_to_graphviz, graphviz_impl.py:241-265 *)
  Definition vertex_to_graphviz (u : nat) (dpv : list (str * (nat -> option str))) : str :=
    join (lit " ") [str_nat u; graphviz_properties_to_str u dpv].

  (** graphviz_arc and graphviz_type, graphviz_impl.py:268-291 *)
  Definition graphviz_arc (directed : bool) : str := if directed then lit "->" else lit "--".
  (** graphviz_type, graphviz_impl.py:281-291 *)
  Definition graphviz_type (directed : bool) : str := if directed then lit "digraph" else lit "graph".

  (** edge_to_graphviz, graphviz_impl.py:305-334 *)
  Definition edge_to_graphviz {D} (directed : bool) (e : edge D) (dpe : list (str * (edge D -> option str))) : str :=
    join (lit " ") [str_nat (source e); graphviz_arc directed; str_nat (target e); graphviz_properties_to_str e dpe].

  (** [[s] if s else []], graphviz_impl.py:420-424 *)
  Definition if_truthy (s : str) : list str := match s with [] => [] | _ => [s] end.

  (** to_dot, graphviz_impl.py:363-439; [vs] and [es] are the vertices and the edges (by default, those of the graph). *)
  Definition to_dot {D} (directed : bool) (vs : list nat) (es : list (edge D)) (o : dot_args_of D) : str :=
    let style := match graphviz_style o with None => default_graphviz_style | Some s => s end in
    let instructions :=
      if_truthy style ++ if_truthy (graphviz_dx_to_dot (lit "graph") (dg o)) ++
      if_truthy (graphviz_dx_to_dot (lit "node") (dv o)) ++ if_truthy (graphviz_dx_to_dot (lit "edge") (de o)) ++
      if_truthy (extra_style o) ++ map (fun u => vertex_to_graphviz u (dpv o)) vs ++
      map (fun e => edge_to_graphviz directed e (dpe o)) es in
    graphviz_type directed ++ lit " G {" ++
    match instructions with
    | [] => []
    | _ => 10%N :: lit "  " ++ join (lit ";" ++ 10%N :: lit "  ") instructions ++ lit ";" ++ [10%N]
    end ++ lit "}".
  (** Graph.to_dot, graph.py:375-383, for DirectedGraph and UndirectedGraph *)
  Definition DG_to_dot (g : graph) := to_dot true (G_vertices g) (G_edges g).
  (** Graph.to_dot, graph.py:375-383, for UndirectedGraph *)
  Definition UG_to_dot (g : graph) := to_dot false (G_vertices g) (UG_edges g).
End ToDot.

(** ** read_graphviz *)

(** str.splitlines(): the line boundaries, with "\r\n" counted once; [acc]: the current line, reversed (called in graphviz.py:147). *)
Definition linebreak (c : char) : bool := mem c [10; 11; 12; 13; 28; 29; 30; 133; 8232; 8233]%N.
(** the loop of str.splitlines, called in graphviz.py:147 *)
Fixpoint splitlines_from (acc s : str) : list str :=
  match s with
  | [] => match acc with [] => [] | _ => [rev acc] end
  | c :: s' =>
      if linebreak c then
        rev acc ::
        match s' with
        | d :: s'' => if eqb c 13%N && eqb d 10%N then splitlines_from [] s'' else splitlines_from [] s'
        | [] => []
        end
      else splitlines_from (c :: acc) s'
  end.
(** str.splitlines(), called in graphviz.py:147 *)
Definition splitlines (s : str) : list str := splitlines_from [] s.

(** str.strip() (graphviz.py:150) *)
Definition strip (s : str) : str := rev (skip_spaces (rev (skip_spaces s))).

(** The class [0-9] *)
Definition digit09 (c : char) : bool := ((48 <=? c) && (c <=? 57))%N.

(** Does [s] start with [\s*;] ? (graphviz.py:111-117) *)
Definition match_semicolon (s : str) : bool :=
  match skip_spaces s with c :: _ => eqb c (ch ";") | [] => false end.
(** Does [s] start with [.*\]\s*;] ? (the dot excludes "\n") (PATTERN_OPTS, graphviz.py:110-117) *)
Fixpoint match_opts_body (s : str) : bool :=
  match s with
  | [] => false
  | c :: s' => (eqb c (ch "]") && match_semicolon s') || (negb (eqb c 10%N) && match_opts_body s')
  end.
(** Does [s] start with [\s* P\s*;] where [P] is an optional [\[.*\]] (PATTERN_OPTS and what surrounds it in graphviz.py:111-117)? The text of the
    options is not returned, as GraphvizOptsParser is not modelled. *)
Definition match_opts (s : str) : bool :=
  match skip_spaces s with
  | c :: s' => (eqb c (ch "[") && match_opts_body s') || match_semicolon s
  | [] => false
  end.
(** RE_LINE_VERTEX.match, graphviz.py:107-121: group 1. [[0-9]+] is greedy, and giving back digits never allows
    another match. *)
Definition match_line_vertex (s : str) : option str :=
  match span digit09 s with
  | ([], _) => None
  | (u, r) => if match_opts r then Some u else None
  end.
(** RE_LINE_EDGE.match: groups 1 and 2 *)
Definition match_line_edge (s : str) : option (str * str) :=
  match span digit09 s with
  | ([], _) => None
  | (u, r) =>
      match skip_spaces r with
      | a :: b :: r' =>
          if eqb a (ch "-") && eqb b (ch ">") then
            match span digit09 (skip_spaces r') with
            | ([], _) => None
            | (v, r'') => if match_opts r'' then Some (u, v) else None
            end
          else None
      | _ => None
      end
  end.

Section Read.
  (** g.add_edge: that of DirectedGraph or that of UndirectedGraph (add_vertex is the same) *)
  Variable add_edge : graph -> nat -> nat -> graph * res (gedge * bool).
  (** the graph and the aliases of ReadGraphvizVisitor, graphviz.py:59-104 *)
  Notation rstate := (graph * dict str nat)%type.

  (** ReadGraphvizVisitor.on_vertex, graphviz.py:79-86 *)
  Definition on_vertex (s : rstate) (u_alias : str) : rstate * res unit :=
    match G_add_vertex (fst s) with
    | (g, Ok u) => ((g, dset (snd s) u_alias u), Ok tt)
    | (g, Raise ex) => ((g, snd s), Raise ex)
    end.
  (** ReadGraphvizVisitor.on_edge, graphviz.py:88-104 *)
  Definition on_edge (s : rstate) (u_alias v_alias : str) : rstate * res unit :=
    match dget (snd s) u_alias, dget (snd s) v_alias with
    | Some u, Some v =>
        match add_edge (fst s) u v with
        | (g, Ok (_, added)) => ((g, snd s), if added then Ok tt else Raise AssertionError)
        | (g, Raise ex) => ((g, snd s), Raise ex)
        end
    | _, _ => (s, Raise KeyError)
    end.
  (** The body of the loop of read_graphviz, graphviz.py:149-163; on_else does nothing (graphviz.py:55-56) *)
  Definition read_line (s : rstate) (line : str) : rstate * res unit :=
    let line := strip line in
    match match_line_vertex line with
    | Some u_alias => on_vertex s u_alias
    | None =>
        match match_line_edge line with
        | Some (u_alias, v_alias) => on_edge s u_alias v_alias
        | None => (s, Ok tt)
        end
    end.
  (** read_graphviz, graphviz.py:124-163, on a string, with the default visitor *)
  Definition read_graphviz (dot : str) (g : graph) : graph * res unit :=
    let '(s, r) := foreach read_line (g, []) (splitlines dot) in (fst s, r).
End Read.
