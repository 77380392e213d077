(** Reading JSON (RFC 8259). *)
From Coq Require Import String.
From Verif Require Import Str.
From Verif Require Import Base.
Open Scope string_scope.
Open Scope nat_scope.
Open Scope list_scope.

(** A number is kept as its text; an object is the list of its members, as written. *)
Inductive json := JNull | JBool (b : bool) | JNum (text : str) | JStr (s : str) | JArr (l : list json) | JObj (l : list (str * json)).

(** ws = space, tab, line feed, carriage return *)
Definition ws (c : char) : bool := mem c [32; 9; 10; 13]%N.
Fixpoint skip (s : str) : str := match s with c :: s' => if ws c then skip s' else s | [] => [] end.

Definition digit (c : char) : bool := ((48 <=? c) && (c <=? 57))%N.
Definition hex_value (c : char) : option N :=
  if digit c then Some (c - 48)%N else if ((97 <=? c) && (c <=? 102))%N then Some (c - 87)%N
  else if ((65 <=? c) && (c <=? 70))%N then Some (c - 55)%N else None.
Definition escaped (c : char) : option char :=
  dget [(ch """", ch """"); (ch "\", ch "\"); (ch "/", ch "/"); (ch "b", 8%N); (ch "f", 12%N); (ch "n", 10%N); (ch "r", 13%N); (ch "t", 9%N)] c.
(** What follows the opening quote of a string: its characters, what remains after the closing quote. *)
Fixpoint p_string (s : str) : option (str * str) :=
  match s with
  | [] => None
  | c :: s' =>
      if eqb c (ch """") then Some ([], s')
      else if eqb c (ch "\") then
        match s' with
        | d :: s'' =>
            if eqb d (ch "u") then
              match s'' with
              | h1 :: h2 :: h3 :: h4 :: s3 =>
                  match hex_value h1, hex_value h2, hex_value h3, hex_value h4, p_string s3 with
                  | Some a, Some b, Some c, Some d, Some (x, r) => Some ((((a * 16 + b) * 16 + c) * 16 + d)%N :: x, r)
                  | _, _, _, _, _ => None
                  end
              | _ => None
              end
            else match escaped d, p_string s'' with Some e, Some (x, r) => Some (e :: x, r) | _, _ => None end
        | [] => None
        end
      else if (c <? 32)%N then None
      else match p_string s' with Some (x, r) => Some (c :: x, r) | None => None end
  end.

(** digits, as many as possible *)
Fixpoint digits (s : str) : str * str :=
  match s with c :: s' => if digit c then let '(d, r) := digits s' in (c :: d, r) else ([], s) | [] => ([], []) end.
(** [0] or a digit other than 0 followed by digits *)
Definition p_int (s : str) : option (str * str) :=
  match s with
  | c :: s' => if eqb c 48%N then Some ([c], s') else if digit c then Some (digits s) else None
  | [] => None
  end.
Definition p_frac (s : str) : option (str * str) :=
  match s with
  | c :: s' => if eqb c (ch ".") then match digits s' with ([], _) => None | (d, r) => Some (c :: d, r) end else Some ([], s)
  | [] => Some ([], [])
  end.
Definition p_exp (s : str) : option (str * str) :=
  match s with
  | c :: s' =>
      if eqb c (ch "e") || eqb c (ch "E") then
        let '(sign, s2) := match s' with x :: s2 => if eqb x (ch "+") || eqb x (ch "-") then ([x], s2) else ([], s') | [] => ([], s') end in
        match digits s2 with ([], _) => None | (d, r) => Some (c :: sign ++ d, r) end
      else Some ([], s)
  | [] => Some ([], [])
  end.
Definition p_number (s : str) : option (str * str) :=
  let '(minus, s1) := match s with c :: s' => if eqb c (ch "-") then ([c], s') else ([], s) | [] => ([], []) end in
  match p_int s1 with
  | None => None
  | Some (i, s2) =>
      match p_frac s2 with
      | None => None
      | Some (f, s3) => match p_exp s3 with Some (e, r) => Some (minus ++ i ++ f ++ e, r) | None => None end
      end
  end.

Fixpoint after_prefix (p s : str) : option str :=
  match p, s with
  | [], _ => Some s
  | a :: p', c :: s' => if eqb a c then after_prefix p' s' else None
  | _, _ => None
  end.

(** A value at the beginning of [s] and what remains. [p_items]: the values of an array, up to its end, when there is at least one;
    [p_members]: the same for an object. *)
Fixpoint p_value (fuel : nat) (s : str) : option (json * str) :=
  match fuel with
  | 0 => None
  | S n =>
      match s with
      | [] => None
      | c :: s' =>
          if eqb c (ch """") then match p_string s' with Some (x, r) => Some (JStr x, r) | None => None end
          else if eqb c (ch "[") then
            match skip s' with
            | d :: r => if eqb d (ch "]") then Some (JArr [], r) else match p_items n (d :: r) with Some (l, r') => Some (JArr l, r') | None => None end
            | [] => None
            end
          else if eqb c (ch "{") then
            match skip s' with
            | d :: r => if eqb d (ch "}") then Some (JObj [], r) else match p_members n (d :: r) with Some (l, r') => Some (JObj l, r') | None => None end
            | [] => None
            end
          else
            match after_prefix (lit "null") s, after_prefix (lit "true") s, after_prefix (lit "false") s with
            | Some r, _, _ => Some (JNull, r)
            | _, Some r, _ => Some (JBool true, r)
            | _, _, Some r => Some (JBool false, r)
            | None, None, None => match p_number s with Some (x, r) => Some (JNum x, r) | None => None end
            end
      end
  end
with p_items (fuel : nat) (s : str) : option (list json * str) :=
  match fuel with
  | 0 => None
  | S n =>
      match p_value n s with
      | None => None
      | Some (v, r) =>
          match skip r with
          | [] => None
          | c :: r' =>
              if eqb c (ch "]") then Some ([v], r')
              else if eqb c (ch ",") then match p_items n (skip r') with Some (l, r'') => Some (v :: l, r'') | None => None end
              else None
          end
      end
  end
with p_members (fuel : nat) (s : str) : option (list (str * json) * str) :=
  match fuel with
  | 0 => None
  | S n =>
      match s with
      | [] => None
      | q :: s' =>
          if negb (eqb q (ch """")) then None
          else
            match p_string s' with
            | None => None
            | Some (k, r) =>
                match skip r with
                | [] => None
                | c :: r1 =>
                    if negb (eqb c (ch ":")) then None
                    else
                      match p_value n (skip r1) with
                      | None => None
                      | Some (v, r2) =>
                          match skip r2 with
                          | [] => None
                          | c :: r3 =>
                              if eqb c (ch "}") then Some ([(k, v)], r3)
                              else if eqb c (ch ",") then match p_members n (skip r3) with Some (l, r4) => Some ((k, v) :: l, r4) | None => None end
                              else None
                          end
                      end
                end
            end
      end
  end.
(** The value of a text. Two calls at most are nested for each character. *)
Definition json_read (s : str) : option json :=
  match p_value (S (2 * List.length s)) (skip s) with Some (v, r) => match skip r with [] => Some v | _ => None end | None => None end.

(** a string that means itself between quotes *)
Definition plain (s : str) : Prop := forall c, In c s -> (32 <= c)%N /\ c <> ch """" /\ c <> ch "\".
