(** Regular expressions: concrete syntax, languages; character classes. *)
From Coq Require Import String.
From Verif Require Import Str ThompsonSpec Regexp.
Open Scope string_scope.
Open Scope nat_scope.
Open Scope list_scope.

(** ** Character classes *)
(** a character, a range lo-hi, an escape sequence *)
Inductive item := One (c : char) | Range (lo hi : char) | EscI (c : char).
Definition item_text (i : item) : str :=
  match i with One c => [c] | Range lo hi => [lo; ch "-"; hi] | EscI c => [ch "\"; c] end.
Definition items_text (l : list item) : str := concat (map item_text l).
(** [items] or [^items] *)
Definition class_text (neg : bool) (l : list item) : str := lit "[" ++ (if neg then lit "^" else []) ++ items_text l ++ lit "]".

Definition between (lo hi x : char) : Prop := (lo <= x /\ x <= hi)%N.
Definition digit (x : char) : Prop := between 48%N 57%N x.
Definition letter (x : char) : Prop := between 65%N 90%N x \/ between 97%N 122%N x.
(** The characters denoted by the escape sequence \c; [alphabet]: all the characters, for \D, \S, \W. (\s is a space or
    a tabulation, \w a letter or a digit.) *)
Definition escaped (alphabet : list char) (c x : char) : Prop :=
  if mem c (lit "+*?.|[](){}") then x = c
  else if eqb c (ch "a") then x = 7%N
  else if eqb c (ch "b") then x = 8%N
  else if eqb c (ch "t") then x = 9%N
  else if eqb c (ch "n") then x = 10%N
  else if eqb c (ch "v") then x = 11%N
  else if eqb c (ch "f") then x = 12%N
  else if eqb c (ch "r") then x = 13%N
  else if eqb c (ch "d") then digit x
  else if eqb c (ch "D") then In x alphabet /\ ~ digit x
  else if eqb c (ch "s") then x = 32%N \/ x = 9%N
  else if eqb c (ch "S") then In x alphabet /\ ~ (x = 32%N \/ x = 9%N)
  else if eqb c (ch "w") then digit x \/ letter x
  else if eqb c (ch "W") then In x alphabet /\ ~ (digit x \/ letter x)
  else False.
Definition escapable : str := lit "abdDfnrsStvwW*+?.|[](){}".
(** the printable ASCII characters: 9 to 13 and 32 to 126 *)
Definition printable (x : char) : Prop := between 9%N 13%N x \/ between 32%N 126%N x.
(** the alphabet in use: the printable characters when none is given *)
Definition alphabet_of (alphabet : list char) : list char := match alphabet with [] => default_alphabet | _ => alphabet end.

(** inside a bracket, \D, \S and \W are always relative to the printable characters *)
Definition in_item (x : char) (i : item) : Prop :=
  match i with One c => x = c | Range lo hi => between lo hi x | EscI c => escaped default_alphabet c x end.
Definition in_class (alphabet : list char) (neg : bool) (l : list item) (x : char) : Prop :=
  if neg then In x (alphabet_of alphabet) /\ ~ Exists (in_item x) l else Exists (in_item x) l.

(** A hyphen stands for itself only at the first place; a backslash begins an escape sequence. *)
Definition first_char (i : item) : char := match i with One c | Range c _ => c | EscI _ => ch "\" end.
Definition item_ok (i : item) : Prop :=
  match i with One c => c <> ch "\" | Range lo hi => lo <> ch "\" /\ (lo <= hi)%N | EscI c => In c escapable end.
Definition items_ok (l : list item) : Prop :=
  Forall item_ok l /\ match l with [] => True | _ :: l' => Forall (fun i => first_char i <> ch "-") l' end.
(** without ^, the list is not empty and does not begin with ^ *)
Definition class_ok (neg : bool) (l : list item) : Prop :=
  items_ok l /\ (neg = false -> match l with [] => False | i :: _ => first_char i <> ch "^" end).

(** ** Regular expressions *)
(** {ds}, {ds,} and {ds,ds'}, where ds is written in decimal *)
Inductive bounds := Exactly (ds : str) | AtLeast (ds : str) | Between (ds ds' : str).
Inductive rexp :=
| Chr (c : char) | Cls (neg : bool) (l : list item) | Esc (c : char)
| Cat (a b : rexp) | Alt (a b : rexp) | Star (x : rexp) | Plus (x : rexp) | Opt (x : rexp) | Rep (x : rexp) (b : bounds) | Grp (x : rexp).

Definition bounds_text (b : bounds) : str :=
  match b with
  | Exactly ds => lit "{" ++ ds ++ lit "}" | AtLeast ds => lit "{" ++ ds ++ lit ",}" | Between ds ds' => lit "{" ++ ds ++ lit "," ++ ds' ++ lit "}"
  end.
(** how the expression is written *)
Fixpoint show (r : rexp) : str :=
  match r with
  | Chr c => [c] | Cls neg l => class_text neg l | Esc c => [ch "\"; c]
  | Cat a b => show a ++ show b | Alt a b => show a ++ lit "|" ++ show b
  | Star x => show x ++ lit "*" | Plus x => show x ++ lit "+" | Opt x => show x ++ lit "?" | Rep x b => show x ++ bounds_text b
  | Grp x => lit "(" ++ show x ++ lit ")"
  end.

(** the number written in decimal, its last digit first *)
Fixpoint decimal_rev (ds : str) : nat := match ds with [] => 0 | c :: ds' => N.to_nat (c - 48) + 10 * decimal_rev ds' end.
Definition decimal (ds : str) : nat := decimal_rev (rev ds).
Definition bmin (b : bounds) : nat := match b with Exactly ds | AtLeast ds | Between ds _ => decimal ds end.
Definition bmax (b : bounds) : option nat := match b with Exactly ds => Some (decimal ds) | AtLeast _ => None | Between _ ds => Some (decimal ds) end.

(** the words denoted by the expression *)
Fixpoint denote (alphabet : list char) (r : rexp) : lang char :=
  match r with
  | Chr c => lsym (eq c) | Cls neg l => lsym (in_class alphabet neg l) | Esc c => lsym (escaped (alphabet_of alphabet) c)
  | Cat a b => lcat (denote alphabet a) (denote alphabet b) | Alt a b => lalt (denote alphabet a) (denote alphabet b)
  | Star x => lstar (denote alphabet x) | Plus x => lplus (denote alphabet x) | Opt x => lopt (denote alphabet x)
  | Rep x b => lrange (denote alphabet x) (bmin b) (bmax b)
  | Grp x => denote alphabet x
  end.

(** The grammar: 0 atoms and atoms with {..}; 1 stars; 2 question marks; 3 concatenations; 4 alternatives. An operand at a
    higher level must be between parentheses. *)
Definition level (r : rexp) : nat :=
  match r with Chr _ | Cls _ _ | Esc _ | Grp _ | Rep _ _ => 0 | Star _ | Plus _ => 1 | Opt _ => 2 | Cat _ _ => 3 | Alt _ _ => 4 end.
Definition is_number (ds : str) : Prop := ds <> [] /\ Forall (fun c => digit c) ds.
Definition bounds_ok (b : bounds) : Prop :=
  match b with Exactly ds | AtLeast ds => is_number ds | Between ds ds' => is_number ds /\ is_number ds' /\ decimal ds <= decimal ds' end.
(** [epsilon] (the Greek letter) cannot be used as a character *)
Fixpoint well_formed (alphabet : list char) (r : rexp) : Prop :=
  match r with
  | Chr c => ~ In c (lit "*+?.|(){[\") /\ c <> epsilon
  | Cls neg l => class_ok neg l /\ ~ In (ch "]") (items_text l) /\ ~ in_class alphabet neg l epsilon
  | Esc c => In c escapable /\ ~ escaped (alphabet_of alphabet) c epsilon
  | Cat a b => well_formed alphabet a /\ well_formed alphabet b /\ level a <= 3 /\ level b <= 2
  | Alt a b => well_formed alphabet a /\ well_formed alphabet b /\ level b <= 3
  | Star x | Plus x => well_formed alphabet x /\ level x <= 1
  | Opt x => well_formed alphabet x /\ level x <= 2
  | Rep x b => well_formed alphabet x /\ level x = 0 /\ bounds_ok b
  | Grp x => well_formed alphabet x
  end.

(** ** Where zero_or_one and repetition_range go wrong *)
(** [starts0 x]: the initial state of the automaton of [x] is the state 0 *)
Fixpoint starts0 (r : rexp) : bool :=
  match r with
  | Chr _ | Cls _ _ | Esc _ => true
  | Cat a _ => starts0 a | Alt _ _ | Star _ | Plus _ => false | Opt x | Grp x => starts0 x
  | Rep x b => match bmin b, bmax b with 0, None | 1, None => false | _, _ => starts0 x end
  end.
(** [loops x]: a star or a plus, possibly with question marks *)
Fixpoint loops (r : rexp) : bool :=
  match r with Star _ | Plus _ => true | Opt x | Grp x => loops x | _ => false end.
(** no loop around the initial state *)
Fixpoint tidy_in (r : rexp) : bool :=
  match r with
  | Chr _ | Cls _ _ | Esc _ | Alt _ _ => true | Cat a _ => tidy_in a | Star _ | Plus _ => false | Opt x | Grp x => tidy_in x
  | Rep x b => match bmin b, bmax b with 0, Some 1 => tidy_in x | 0, Some _ => true | 0, None | 1, None => false | _, _ => tidy_in x end
  end.
(** no loop around the final state *)
Fixpoint tidy_out (r : rexp) : bool :=
  match r with
  | Chr _ | Cls _ _ | Esc _ | Alt _ _ => true | Cat _ b => tidy_out b | Star _ | Plus _ => false | Opt x | Grp x => tidy_out x
  | Rep x b => match bmax b with Some 0 => true | Some _ => tidy_out x | None => false end
  end.
(** Every x? (and x{0,1}) has an operand which is tidy, or a loop; every x{0,n}, n other than 1, has an operand beginning at
    the state 0 with no loop around its final state. *)
Fixpoint safe (r : rexp) : bool :=
  match r with
  | Chr _ | Cls _ _ | Esc _ => true
  | Cat a b | Alt a b => safe a && safe b
  | Star x | Plus x | Grp x => safe x
  | Opt x => safe x && (tidy_in x && tidy_out x || loops x)
  | Rep x b =>
      safe x &&
      match bmin b, bmax b with
      | 0, Some 1 => tidy_in x && tidy_out x || loops x
      | 0, Some 0 => starts0 x
      | 0, Some _ => starts0 x && tidy_out x
      | _, _ => true
      end
  end.

(** ** What is accepted, exactly *)
(** The words read from the initial state q0 of an automaton to its final state f, from q0 to q0, from f to f, from f to q0. *)
Record quad := Quad { qL : lang char; qQ : lang char; qF : lang char; qB : lang char }.
Definition lno : lang char := fun _ => False.
Definition q_sym (P : char -> Prop) : quad := Quad (lsym P) leps leps lno.
Definition q_opt (q : quad) : quad :=
  Quad (lalt (qL q) (lcat (qQ q) (lcat (lstar (qB q)) (qF q)))) (lalt (qQ q) (lcat (qQ q) (lcat (lstar (qB q)) (qB q))))
       (lalt (qF q) (lcat (qB q) (lcat (lstar (qB q)) (qF q)))) (lalt (qB q) (lcat (qB q) (lcat (lstar (qB q)) (qB q)))).
Definition q_star (q : quad) : quad := Quad (lstar (qL q)) (lstar (qL q)) (lstar (qL q)) (lstar (qL q)).
Definition q_plus (q : quad) : quad := Quad (lplus (qL q)) (lstar (qL q)) (lstar (qL q)) (lstar (qL q)).
(** [None]: x{0,n} where x does not begin at the state 0 *)
Definition q_rep (q : quad) (start0 : bool) (m : nat) (n : option nat) : option quad :=
  match m, n with
  | 0, Some 1 => Some (q_opt q)
  | 0, None => Some (q_star q)
  | 1, None => Some (q_plus q)
  | _, None => Some (Quad (lrange (qL q) m None) (qQ q) (lstar (qL q)) lno)
  | 0, Some 0 => if start0 then Some (Quad leps leps leps leps) else None
  | 0, Some n => if start0 then Some (Quad (lalt (qF q) (lrange (qL q) 0 (Some n))) leps (qF q) lno) else None
  | _, Some n => Some (Quad (lrange (qL q) m (Some n)) (qQ q) (qF q) (if n =? 1 then qB q else lno))
  end.
Fixpoint actual (alphabet : list char) (r : rexp) : option quad :=
  match r with
  | Chr c => Some (q_sym (eq c)) | Cls neg l => Some (q_sym (in_class alphabet neg l)) | Esc c => Some (q_sym (escaped (alphabet_of alphabet) c))
  | Cat a b => match actual alphabet a, actual alphabet b with Some qa, Some qb => Some (Quad (lcat (qL qa) (qL qb)) (qQ qa) (qF qb) lno) | _, _ => None end
  | Alt a b => match actual alphabet a, actual alphabet b with Some qa, Some qb => Some (Quad (lalt (qL qa) (qL qb)) leps leps lno) | _, _ => None end
  | Star x => option_map q_star (actual alphabet x) | Plus x => option_map q_plus (actual alphabet x) | Opt x => option_map q_opt (actual alphabet x)
  | Rep x b => match actual alphabet x with Some q => q_rep q (starts0 x) (bmin b) (bmax b) | None => None end
  | Grp x => actual alphabet x
  end.
