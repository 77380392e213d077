(** The assertions of the project's own tests (/repo/tests), replayed on the model: tokenizers, shunting yard, Thompson's
    construction, regular expressions, determination, graphviz, colors. As in RepoTests1.v, these are tests of the model, not
    theorems about it. *)
From Coq Require Import String ZArith QArith NArith.
From Verif Require Import Str ShuntingYard Alg Ast Catify ReEscape Graph Automaton IncMake NodeAut Nfa Thompson Regexp Revuz Graphviz ReadVis RepoTests1 RepoTests2 Base BaseProofs.
From Verif Require Misc HtmlColor.
Open Scope string_scope. Open Scope nat_scope. Open Scope list_scope.

(** tests/test_graph.py:11-113, for the directed and the undirected graphs; [add], [rem], [remv], [out], [edges] are their methods *)
Definition graph_test (add : graph -> nat -> nat -> graph * res (gedge * bool)) (rem : graph -> gedge -> graph * res unit) (remv : graph -> nat -> graph * res unit) (edges : graph -> list gedge) : list bool :=
  let go g u v := let '(g', r) := add g u v in (g', match r with Ok (e, _) => e | _ => Edge 99 99 99 end) in
  let '(g1, e1) := go (G_init 3) 0 1 in let '(g2, e2) := go g1 0 1 in let '(g3, e3) := go g2 0 2 in
  let h := fst (rem g3 e2) in
  let '(g4, e4) := go g3 0 2 in let '(g5, e5) := go g4 1 2 in let '(g6, e6) := go g5 2 2 in
  let k := fst (remv g6 1) in let l := fst (remv k 2) in
  [same (G_vertices (fst (G_add_vertex (G_init 2)))) [0; 1; 2]; same (edges g1) [e1]; same (edges g2) [e1; e2]; same (G_out_edges g2 0) [e1; e2]; same (edges g3) [e1; e2; e3];
   same (G_out_edges g3 0) [e1; e2; e3]; same (edges h) [e1; e3]; G_out_degree h 0 =? 2; same (edges g6) [e1; e2; e3; e4; e5; e6];
   same (G_vertices k) [0; 2]; same (edges k) [e3; e4; e6]; same (G_vertices l) [0]; same (edges l) []].
Example test_graph : forallb (fun b => b) (graph_test G_add_edge G_remove_edge DG_remove_vertex G_edges) = true /\
  forallb (fun b => b) (graph_test UG_add_edge UG_remove_edge UG_remove_vertex UG_edges) = true /\
  G_out_edges (dg 3 [(0, 1); (0, 1); (0, 2)]) 1 = [] /\ G_out_edges (dg 3 [(0, 1); (0, 1); (0, 2)]) 2 = [] /\
  map (G_out_degree (ug 3 [(0, 1); (0, 1); (0, 2)])) [0; 1; 2] = [3; 2; 1].
Proof. vm_compute. repeat split. Qed.

(** tests/test_incidence_node_automaton.py:18-187 *)
Definition inadd (g : naut char) (u v : nat) : naut char := fst (INA_add_edge g u v).
Definition I2 : naut char := inadd (inadd (inadd N1 0 1) 0 2) 1 2.
Example test_incidence_node_automaton : let a := Some (ch "a") in let b := Some (ch "b") in let deg g u := length (INA_in_edges g u) in
  map (deg I2) [0; 1; 2] = [0; 1; 2] /\ map (deg (inadd I2 0 1)) [0; 1] = [0; 1] /\ deg (inadd (inadd I2 0 1) 0 0) 0 = 1 /\
  match snd (INA_add_edge N1 0 1) with Ok (Some e, added) => (source e, target e, distinguisher e, added) = (0, 1, a, true) | _ => False end /\
  match snd (INA_add_edge (inadd N1 0 1) 0 1) with Ok (_, added) => added = false | _ => False end /\
  (let g := inadd (inadd (inadd (inadd N1 0 0) 0 1) 0 2) 1 2 in
   map (fun u => map (fun e => (source e, target e)) (INA_in_edges g u)) [0; 1; 2] = [[(0, 0)]; [(0, 1)]; [(0, 2); (1, 2)]]) /\
  map (fun q => (NA_delta I2 q a, NA_delta I2 q b)) [0; 1; 2] = [(Ok (Some 1), Ok (Some 2)); (Ok None, Ok (Some 2)); (Ok None, Ok None)] /\
  (let g := fst (INA_remove_edge I2 (Edge 1 2 b)) in length (NA_edges g) = 2 /\ NA_delta g 0 a = Ok (Some 1) /\ NA_delta g 0 b = Ok (Some 2) /\ NA_delta g 1 b = Ok None) /\
  (let g := fst (INA_remove_vertex I2 1) in length (NA_vertices g) = 2 /\ length (NA_edges g) = 1 /\ NA_delta g 0 a = Ok None /\ NA_delta g 0 b = Ok (Some 2)).
Proof. vm_compute. repeat split. Qed.
(** tests/test_incidence_node_automaton.py:195-254 *)
Example test_make_incidence_node_automaton : match make_incidence_node_automaton sort_names [(0, 1); (2, 1); (3, 1); (4, 1); (0, 5)] (Some (assoc six_labels)) 0 (fun _ => false) with
  | Ok g => map (na_symbol g) (NA_vertices g) = map (assoc six_labels) [0; 1; 2; 3; 4; 5] /\
      same (map (fun e => (source e, target e)) (NA_edges g)) [(0, 1); (2, 1); (3, 1); (4, 1); (0, 5)] = true
  | Raise _ => False
  end.
Proof. vm_compute. repeat split. Qed.
(** tests/test_revuz_minimize.py:67-95 *)
Example test_revuz_height : match make_incidence_node_automaton sort_names [(0, 1); (0, 2); (1, 2); (1, 3); (2, 4); (3, 4)] (Some (assoc [(1, "a"); (2, "b"); (3, "a"); (4, "c")])) 0 (fun _ => false) with
  | Ok g => match revuz_height (NA_vertices g) (fun u => match NA_out_edges g u with Ok l => length l | _ => 0 end) (INA_in_edges g) 50 idord [] [] with
            | Some (m, h) => m = 3%Z /\ same h [(0, 3); (1, 2); (2, 1); (3, 1); (4, 0)] = true
            | None => False end
  | Raise _ => False
  end.
Proof. vm_compute. repeat split. Qed.

(** numbers of the tests of the arithmetic expressions: integers; float of a string of digits *)
Definition zfloat (s : str) : res Z := Ok (Z.of_nat (int_of s)).
(** a token of the tests *)
Definition S1 (s : string) : atok Z := AStr (lit s).
Definition N' (n : nat) : atok Z := ANum (Z.of_nat n).
(** tests/test_shunting_yard_postfix.py:25-57 *)
Example test_tokenizer_alg : let tok s := tokenizer_alg zfloat (lit s) in
  tok "12+34-456*78/90" = Ok [N' 12; S1 "+"; N' 34; S1 "-"; N' 456; S1 "*"; N' 78; S1 "/"; N' 90] /\
  tok "12+(34+56)" = Ok [N' 12; S1 "+"; S1 "("; N' 34; S1 "+"; N' 56; S1 ")"] /\
  map tok ["+123"; "-123"] = [Ok [S1 "u+"; N' 123]; Ok [S1 "u-"; N' 123]] /\
  map tok ["1*-2"; "1*+2"; "1--2"; "1-+2"; "1+-2"; "1++2"] = map (fun '(x, y) => Ok [N' 1; S1 x; S1 y; N' 2]) [("*", "u-"); ("*", "u+"); ("-", "u-"); ("-", "u+"); ("+", "u-"); ("+", "u+")] /\
  map tok ["1/(-2+3)"; "1/(+2+3)"] = map (fun u => Ok [N' 1; S1 "/"; S1 "("; S1 u; N' 2; S1 "+"; N' 3; S1 ")"]) ["u-"; "u+"] /\
  map tok [" 12 + 3 "; "12 + 3"; " 12+3 "; "12+3"] = repeat (Ok [N' 12; S1 "+"; N' 3]) 4.
Proof. vm_compute. repeat split. Qed.
(** tests/test_shunting_yard_postfix.py:60-63 *)
Example test_re_escape : map re_escape (map lit ["("; ")"; "a"]) = map lit ["\("; "\)"; "a"].
Proof. vm_compute. reflexivity. Qed.
(** tests/test_shunting_yard_postfix.py:66-134; [tokenizer_re(..., cat=None)] is [catify _ None] *)
Example test_tokenizer_re : let imp s := tokenizer_re (lit s) in let exp s := catify (lit s) None in
  map exp ["x{1,3}.y"; "x{3}.y"; "x{3,}.y"] = map (map lit) [["x"; "{1,3}"; "."; "y"]; ["x"; "{3}"; "."; "y"]; ["x"; "{3,}"; "."; "y"]] /\
  map imp ["x{1,3}y"; "x{3}y"; "x{3,}y"] = map (map lit) [["x"; "{1,3}"; "."; "y"]; ["x"; "{3}"; "."; "y"]; ["x"; "{3,}"; "."; "y"]] /\
  map exp ["a.\d.b"; "a.\s.b"; "a.\w.b"] = map (fun c => map lit ["a"; "."; c; "."; "b"]) ["\d"; "\s"; "\w"] /\
  map imp ["a\db"; "a\sb"; "a\wb"] = map (fun c => map lit ["a"; "."; c; "."; "b"]) ["\d"; "\s"; "\w"] /\
  map exp ["a.[0-9].b"; "a.[^0-9].b"; "a.[(].b"] = map (fun c => map lit ["a"; "."; c; "."; "b"]) ["[0-9]"; "[^0-9]"; "[(]"] /\
  map imp ["a[0-9]b"; "a[^0-9]b"; "a[(]b"] = map (fun c => map lit ["a"; "."; c; "."; "b"]) ["[0-9]"; "[^0-9]"; "[(]"] /\
  exp "[a-z].[0-9]" = map lit ["[a-z]"; "."; "[0-9]"] /\ imp "[a-z][0-9]" = map lit ["[a-z]"; "."; "[0-9]"] /\
  exp "(a.b.c)+" = map lit ["("; "a"; "."; "b"; "."; "c"; ")"; "+"] /\ imp "(abc)+" = map lit ["("; "a"; "."; "b"; "."; "c"; ")"; "+"] /\
  exp "11.2.(3+.4*.5?)" = map lit ["11"; "."; "2"; "."; "("; "3"; "+"; "."; "4"; "*"; "."; "5"; "?"; ")"] /\
  map (fun s => concat (imp s)) ["123?(4|5)*67"; "(1?2)*?3+4"; "a\dx"; "a\d+x"; "a[0-9]x"; "a[0-9]+x"; "a{1,2}+x"] =
  map lit ["1.2.3?.(4|5)*.6.7"; "(1?.2)*?.3+.4"; "a.\d.x"; "a.\d+.x"; "a.[0-9].x"; "a.[0-9]+.x"; "a{1,2}+.x"].
Proof. vm_compute. repeat split. Qed.
(** tests/test_shunting_yard_postfix.py:137-171 *)
Example test_shunting_yard_postfix : match tokenizer_alg zfloat (lit "12+3*4+(5-6)/7") with
  | Ok l => shunting_yard_postfix (S1 "(") (S1 ")") map_operators_alg push_deque l [] = Ok [N' 12; N' 3; N' 4; S1 "*"; S1 "+"; N' 5; N' 6; S1 "-"; N' 7; S1 "/"; S1 "+"]
  | _ => False end /\
  shunting_yard_postfix (lit "(") (lit ")") map_operators_re push_deque (tokenizer_re (lit "(12)?(345)*?(67)+89")) [] =
  Ok (map lit ["1"; "2"; "."; "?"; "3"; "4"; "."; "5"; "."; "*"; "?"; "."; "6"; "7"; "."; "+"; "."; "8"; "."; "9"; "."]) /\
  shunting_yard_compute zfloat (fun x y => Ok (x + y)%Z) (fun x y => Ok (x - y)%Z) (fun x y => Ok (x * y)%Z) (fun x y => Ok (x / y)%Z) (fun x y => Ok (x ^ y)%Z) (fun x => Ok (- x)%Z)
    (lit "(10 + -2) * (9-3) ^ 2") = Ok (N' 288).
Proof. vm_compute. repeat split. Qed.
(** tests/test_shunting_yard_postfix.py:174-192 *)
Example test_shunting_yard_ast : match shunting_yard_ast (lit "(") (lit ")") map_operators_re (tokenizer_re (lit "(a?b)*?c+d")) with
  | Ok (t, root) => (G_num_vertices (ast_graph t), DG_num_edges (ast_graph t), root) = (11, 10, 10) | _ => False end.
Proof. vm_compute. reflexivity. Qed.

(** the acceptance by a fragment, the first component of the triples of the tests, tests/test_thompson_compile_nfa.py:22-45 *)
Definition facc (x : res (nfa char * nat * nat)) (w : str) : bool := match x with Ok (g, _, _) => match N_accepts g w with Some b => b | None => false end | Raise _ => false end.
Definition nfa1 := literal epsilon (ch "x").
Definition nfa2 : nfa char * nat * nat := (N_set_final (fst (N_add_edge (fst (N_add_edge (N_init 2 [] epsilon) 0 0 (ch "a"))) 0 1 (ch "b"))) 1 true, 0, 1).
(** the answers on a list of words *)
Definition accs (x : res (nfa char * nat * nat)) (ws : list string) : list bool := map (fun w => facc x (lit w)) ws.
(** tests/test_thompson_compile_nfa.py:48-104 *)
Example test_thompson : (let '(g, _, _) := literal epsilon (ch "a") in nf_init g = [0] /\ N_finals g = [1] /\ N_delta g 0 (ch "a") = Some [1]) /\
  accs (concatenation nfa1 nfa2) ["xaab"; "x"; "aab"] = [true; false; false] /\ accs (alternation nfa1 nfa2) ["xaab"; "x"; "aab"] = [false; true; true] /\
  accs (Ok (zero_or_one nfa1)) [""; "x"; "xx"; "a"] = [true; true; false; false] /\ accs (Ok (zero_or_more nfa1)) [""; "x"; "xx"; "a"] = [true; true; true; false] /\
  accs (Ok (one_or_more nfa1)) [""; "x"; "xx"; "a"] = [false; true; true; false].
Proof. vm_compute. repeat split. Qed.
(** tests/test_thompson_compile_nfa.py:107-138 *)
Example test_repetitions : map parse_repetition (map lit ["{0,1}"; "{0,}"; "{1,}"; "{3,3}"; "{2,4}"; "{2,}"; "{   0 , 1  }"; "{   0 ,   }"; "{   2 , 4  }"]) =
    map Ok [(0, Some 1); (0, None); (1, None); (3, Some 3); (2, Some 4); (2, None); (0, Some 1); (0, None); (2, Some 4)] /\
  map (fun i => facc (repetition epsilon nfa1 4) (repeat (ch "x") i)) (seq 0 10) = map (fun i => i =? 4) (seq 0 10) /\
  map (fun '(m, n) => map (fun i => facc (repetition_range epsilon idord nfa1 m n) (repeat (ch "x") i)) (seq 0 10)) [(3, Some 5); (0, Some 3); (3, Some 3); (3, None)] =
  map (fun '(m, n) => map (fun i => (m <=? i) && match n with Some n => i <=? n | None => true end) (seq 0 10)) [(3, Some 5); (0, Some 3); (3, Some 3); (3, None)].
Proof. vm_compute. repeat split. Qed.
(** the set of a result *)
Definition is_set (r : res (list char)) (s : list char) : bool := match r with Ok l => same l s | Raise _ => false end.
(** the characters from [m] to [n] *)
Definition span' (m n : nat) : list char := map N.of_nat (seq m (S n - m)).
(** tests/test_thompson_compile_nfa.py:141-183 *)
Example test_parse_bracket : let pb s := parse_bracket (lit s) default_alphabet in
  is_set (pb "[a-z]") (span' 97 122) = true /\ is_set (pb "[a-zA-Z]") (span' 65 90 ++ span' 97 122) = true /\ is_set (pb "[a-e0-9P-T]") (span' 48 57 ++ span' 80 84 ++ span' 97 101) = true /\
  is_set (pb "[^a-zA-Z]") (span' 9 13 ++ span' 32 64 ++ span' 91 96 ++ span' 123 126) = true /\ is_set (pb "[\s]") [32; 9]%N = true /\
  match pb "[X-Z03a-e]" with
  | Ok chars => forallb (fun c => facc (Ok (bracket epsilon chars)) [c]) (lit "XYZ03abcde") = true /\ existsb (fun c => facc (Ok (bracket epsilon chars)) [c]) (lit "ABC12456789fghi") = false
  | _ => False end.
Proof. vm_compute. repeat split. Qed.
(** tests/test_thompson_compile_nfa.py:186-208 *)
Example test_parse_escaped : let pe s := parse_escaped (lit s) default_alphabet in let pb s := get (parse_bracket (lit s) default_alphabet) [] in
  map pe ["\."; "\|"; "\?"; "\*"; "\+"; "\("; "\)"; "\["; "\]"; "\{"; "\}"] = map (fun s => Ok [ch s]) ["."; "|"; "?"; "*"; "+"; "("; ")"; "["; "]"; "{"; "}"] /\
  is_set (pe "\w") (pb "[a-zA-Z0-9]") = true /\ is_set (pe "\W") (pb "[^a-zA-Z0-9]") = true /\ is_set (pe "\d") (pb "[0-9]") = true /\ is_set (pe "\D") (pb "[^0-9]") = true /\
  map pe ["\a"; "\b"; "\f"; "\n"; "\r"; "\t"; "\v"] = map (fun c => Ok [c]) [7; 8; 12; 10; 13; 9; 11]%N.
Proof. vm_compute. repeat split. Qed.
(** the NFA of a regular expression *)
Definition T (s : string) := thompson_compile_nfa idord idord default_alphabet (lit s).
(** tests/test_thompson_compile_nfa.py:211-265 *)
Example test_escaped : accs (T "a\?b") ["a?b"; "ab"; "b"] = [true; false; false] /\ accs (T "a?b") ["a?b"; "ab"; "b"] = [false; true; true] /\
  forallb (fun s => facc (T s) (skipn 1 (lit s))) ["\|"; "\."; "\*"; "\+"; "\("; "\)"; "\{"; "\}"; "\["; "\]"] = true /\
  forallb (fun '(r, rl, neg) => match parse_escaped (lit rl) default_alphabet with
    | Ok allowed => forallb (fun a => eqb (facc (T r) [a]) (if neg : bool then negb (mem a allowed) else mem a allowed)) default_alphabet
    | _ => false end) [("\d", "\d", false); ("\w", "\w", false); ("\s", "\s", false); ("\D", "\d", true); ("\W", "\w", true); ("\S", "\s", true)] = true /\
  forallb (fun r => forallb (fun w => facc (T r) w) [[32]; [32; 32; 32]; [9; 9]; [32; 9; 32; 9; 32]]%N) ["\s+"; "[\s]+"] = true.
Proof. vm_compute. repeat split. Qed.
(** tests/test_thompson_compile_nfa.py:268-370 *)
Example test_thompson_compile_nfa : accs (T "(a?b)*?c+d") ["babbbababcccccd"] = [true] /\ accs (T "a*|b") ["bbbbb"; "b"; "aaaaaa"] = [false; true; true] /\
  accs (T "a+b+") ["abab"; "aaa"; "bbb"; "ab"; "aaaaaabbbbbb"] = [false; false; false; true; true] /\
  accs (T "(ab?)*") [""; "b"; "a"; "ab"; "aba"; "abb"] = [true; false; true; true; true; false] /\
  accs (T "(ab+)*") [""; "b"; "abbbbb"; "abbbbbabbbbbabbbbb"] = [true; false; true; true] /\ accs (T "(ab+)+") [""; "b"; "abbbbb"; "abbbbbabbbbbabbbbb"] = [false; false; true; true] /\
  map (fun i => facc (T "((ab){3})*") (concat (repeat (lit "ab") i))) (seq 0 7) = [true; false; false; true; false; false; true] /\
  accs (T "[x-z]{1,3}") ["x"; "y"; "xx"; "xy"; "zy"; "xxx"; "yyy"; "zzz"; "xyz"; "zyx"; ""; "xxxx"; "aaa"] = repeat true 10 ++ repeat false 3 /\ accs (T "x{3}") ["xxx"] = [true] /\
  accs (T "\|\.\*\+\(\)\{\}\[\]aa") ["|.*+(){}[]aa"] = [true].
Proof. vm_compute. repeat split. Qed.
(** tests/test_moore_determination.py:12-41 *)
Example test_moore_determination : forallb (fun '(s, w) => forallb (fun complete => match compile_dfa idord idord default_alphabet (lit s) complete idord idord 200 with
    | Some (Ok d) => A_accepts d (lit w) | _ => false end) [true; false]) [("(a?b)*?c+d", "babbbababcccccd"); ("d?", "")] = true.
Proof. vm_compute. reflexivity. Qed.
(** tests/test_regexp.py:7-47 *)
Definition PATTERN_IPV6 := "([a-fA-F0-9]{0,4})?(:[a-fA-F0-9]{0,4})+:[a-fA-F0-9]{0,4}".
Definition IPV6 := ["::1"; "2a02:a802:23::1"; "2a01:e35:2e49:10c0:eeb3:6f16:6bd4:d833"; "2A01:E35:2E49:10C0:EEB3:6F16:6BD4:D833"; "2A01:X35:2E49:10C0:EEB3:6F16:6BD4:D833"; ":"; "A"; ":A"; "1"; ":1"].
Example test_compile_nfa_ipv6 : match compile_nfa idord idord default_alphabet (lit PATTERN_IPV6) with
  | Ok g => (15 <=? length (N_vertices g)) = true /\ (279 <=? length (N_edges g)) = true /\ map (fun w => N_accepts g (lit w)) IPV6 = repeat (Some true) 4 ++ repeat (Some false) 6 | _ => False end.
Proof. vm_compute. repeat split. Qed.
Example test_compile_dfa_ipv6 : match compile_dfa idord idord default_alphabet (lit PATTERN_IPV6) false idord idord 200 with
  | Some (Ok d) => length (A_vertices d) = 15 /\ length (A_edges d) = 279 /\ map (fun w => A_accepts d (lit w)) IPV6 = repeat true 4 ++ repeat false 6 | _ => False end.
Proof. vm_compute. repeat split. Qed.

(** tests/test_graphviz.py:27-44: the characters that must be escaped *)
Example test_graphviz_escape_char : forallb (fun a => negb (eqb (graphviz_escape_char a) [a])) (lit "&<>[]{}" ++ span' 0 31) = true.
Proof. vm_compute. reflexivity. Qed.
(** tests/test_graphviz.py:55-71 *)
Example test_graphviz_escape_html : let esc := graphviz_escape_html GRAPHVIZ_SUPPORTED_HTML_TAGS in
  map (fun s => esc (lit s)) ["<table><tr><td>foo</td></tr></table>"; "<b>foo</b>"; "<"; ">"; "["; "]"; "{"; "}"; "<foo>"; "<b>foo</b><bar>"] =
  map lit ["<table><tr><td>foo</td></tr></table>"; "<b>foo</b>"; "&#60;"; "&#62;"; "&#91;"; "&#93;"; "&#123;"; "&#125;"; "&#60;foo&#62;"; "<b>foo</b>&#60;bar&#62;"] /\
  esc [10%N] = lit "\n" /\ esc [9%N] = lit "\t".
Proof. vm_compute. repeat split. Qed.
(** tests/test_graphviz.py:175-186 *)
Definition nl := [10%N].
Example test_read_graphviz_simple : let '(g, r) := read_graphviz G_add_edge (join nl (map lit ["digraph G {"; "        0;"; "        1;"; "        2;"; "        0->1;"; "    }"])) (G_init 0) in
  r = Ok tt /\ dsize g = (3, 1).
Proof. vm_compute. repeat split. Qed.
(** tests/test_graphviz.py:189-226; HTMLParser, which is not modelled, is given by its results on the texts of the test *)
Definition tags_of_test (s : str) : list (list (str * option str)) :=
  let kv k v := (lit k, Some (lit v)) in
  match find (fun '(t, _) => eqb s (lit t)) [("<fake_tag fontsize=8 label='red'>", [kv "fontsize" "8"; kv "label" "red"]); ("<fake_tag label='green'>", [kv "label" "green"]);
    ("<fake_tag label='blue' fontsize=10>", [kv "label" "blue"; kv "fontsize" "10"]); ("<fake_tag label='my_label'>", [kv "label" "my_label"])] with
  | Some (_, attrs) => [attrs] | None => [] end.
Definition label_vertex (h : dict nat (option str) * dict gedge (option str)) (u : nat) (k : str) (v : option str) := ((if eqb k (lit "label") then (dset (fst h) u v, snd h) else h), Ok tt).
Definition label_edge (h : dict nat (option str) * dict gedge (option str)) (e : gedge) (k : str) (v : option str) := ((if eqb k (lit "label") then (fst h, dset (snd h) e v) else h), Ok tt).
Example test_read_graphviz_custom : let '(g, h, r) := read_graphviz_vis G_add_edge tags_of_test _ label_vertex label_edge
    (join nl (map lit ["digraph G {"; "        0 [fontsize=8 label='red'];"; "        1 [label='green'];"; "        2 [label='blue' fontsize=10];"; "        0->1 [label='my_label'];"; "    }"])) (G_init 0) ([], []) in
  r = Ok tt /\ fst h = [(0, Some (lit "red")); (1, Some (lit "green")); (2, Some (lit "blue"))] /\ map (fun e => (e, Some (lit "my_label"))) (G_edges g) = snd h.
Proof. vm_compute. repeat split. Qed.

(** tests/test_color.py:12-34: floats are exact rationals in the model, so the equality of the tests is up to 1e-12 *)
Definition near (x y : Q * Q * Q) : bool :=
  let '(a, b, c) := x in let '(d, e, f) := y in
  forallb (fun q => Qle_bool q (1 # 1000000000000) && Qle_bool (- q) (1 # 1000000000000)) [a - d; b - e; c - f]%Q.
Example test_color : near (Misc.hsv_to_hsl (482 # 1000) (714 # 1000) (878 # 1000)) (482 # 1000, 7198274872199998 # 10000000000000000, 564554 # 1000000)%Q = true /\
  near (Misc.hsl_to_hsv (482 # 1000) (7198274872199998 # 10000000000000000) (564554 # 1000000)) (482 # 1000, 714 # 1000, 878 # 1000)%Q = true /\
  near (Misc.normalize_color_tuple 173 71 56) (48055555555555557 # 100000000000000000, 71 # 100, 56 # 100)%Q = true /\
  (forall f, map (HtmlColor.html_color_to_graphviz f) (map lit ["turquoise"; "#40e0d0"]) = map Ok (map lit ["turquoise"; "#40e0d0"])) /\
  (let '(h, s, v) := Misc.hsl_to_hsv (173 # 360) (71 # 100) (56 # 100) in near (h, s, v) (48055555555555557 # 100000000000000000, 7161852361302155 # 10000000000000000, 8724 # 10000)%Q = true).
Proof. vm_compute. repeat split. Qed.
