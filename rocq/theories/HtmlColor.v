(** Model of html_color_to_graphviz, src/pybgl/color.py:74-102, with the methods of str and int that it calls. *)
From Coq Require Import String ZArith QArith.
Open Scope string_scope. Open Scope nat_scope. Open Scope list_scope.
From Verif Require Import Base Str Graphviz Misc.

(** color.startswith(p) (color.py:86) *)
Fixpoint startswith (p s : str) : bool :=
  match p, s with
  | [], _ => true
  | x :: p', y :: s' => eqb x y && startswith p' s'
  | _, [] => false
  end.
(** s.find(c): None is -1 *)
Fixpoint find_char (c : char) (s : str) : option nat :=
  match s with
  | [] => None
  | x :: s' => if eqb x c then Some 0 else option_map S (find_char c s')
  end.
(** s.rfind(c) (color.py:88) *)
Definition rfind_char (c : char) (s : str) : option nat :=
  match find_char c (rev s) with None => None | Some i => Some (List.length s - 1 - i) end.
(** s.split(c) (color.py:91) *)
Fixpoint split_on (c : char) (s : str) : list str :=
  match s with
  | [] => [[]]
  | x :: s' =>
      if eqb x c then [] :: split_on c s'
      else match split_on c s' with [] => [[x]] | f :: fs => (x :: f) :: fs end
  end.
(** int(s): blanks, a sign, digits with single underscores between them, blanks. The digits above
    U+007F and the limit of 4300 digits are left out (a simplification). *)
Fixpoint int_digits (after_digit : bool) (acc : Z) (s : str) : option Z :=
  match s with
  | [] => if after_digit then Some acc else None
  | c :: s' =>
      if isdigit c then int_digits true (10 * acc + (Z.of_N c - 48)) s'
      else if eqb c (ch "_") && after_digit then int_digits false acc s'
      else None
  end.
(** int(s), called in color.py:90: see [int_digits] *)
Definition py_int (s : str) : res Z :=
  let o :=
    match strip s with
    | c :: r =>
        if eqb c (ch "+") then int_digits false 0 r
        else if eqb c (ch "-") then option_map Z.opp (int_digits false 0 r)
        else int_digits false 0 (c :: r)
    | [] => None
    end in
  match o with Some n => Ok n | None => Raise ValueError end.
(** [int(x.replace("%", "")) for x in fields], color.py:90-91 *)
Fixpoint ints (fields : list str) : res (list Z) :=
  match fields with
  | [] => Ok []
  | x :: fs =>
      rbind (py_int (filter (fun c => negb (eqb c (ch "%"))) x)) (fun n =>
        rbind (ints fs) (fun ns => Ok (n :: ns)))
  end.

(** html_color_to_graphviz, color.py:74-102. [str_float] is str on the floats, which are exact rationals here. *)
Definition html_color_to_graphviz (str_float : Q -> str) (color : str) : res str :=
  if startswith (lit "hsl") color
  then
    let a := match find_char (ch "(") color with Some j => S j | None => 0 end in
    let b := match rfind_char (ch ")") color with Some k => k | None => List.length color - 1 end in
    let inside := firstn (b - a) (skipn a color) in
    rbind (ints (split_on (ch ",") inside)) (fun l =>
      match l with
      | [hue; saturation; lightness] =>
          let '(h, s, x) := normalize_color_tuple (inject_Z hue) (inject_Z saturation) (inject_Z lightness) in
          let '(h, s, v) := hsl_to_hsv h s x in
          Ok (join (lit ", ") (map str_float [h; s; v]))
      | _ => Raise ValueError
      end)
  else Ok color.
