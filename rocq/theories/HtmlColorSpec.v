(** The texts of the HTML colors hsl(hue, saturation%, lightness%). *)
From Coq Require Import String ZArith QArith.
Open Scope string_scope. Open Scope nat_scope. Open Scope list_scope.
From Verif Require Import Base Str.

(** a non-empty text of decimal digits and the integer it stands for *)
Definition numeral (s : str) : Prop := s <> [] /\ Forall (fun c => In c (lit "0123456789")) s.
Fixpoint numeral_value (s : str) : Z :=
  match s with
  | [] => 0
  | c :: s' => (Z.of_N c - 48) * 10 ^ Z.of_nat (List.length s') + numeral_value s'
  end.
(** a numeral between blanks, with or without a percent sign *)
Definition a_field (s : str) (n : Z) : Prop :=
  exists b d p b', s = b ++ d ++ p ++ b' /\ Forall (fun c => isspace c = true) b /\ Forall (fun c => isspace c = true) b' /\
    numeral d /\ numeral_value d = n /\ (p = [] \/ p = lit "%").
(** hsl...( field , field , field )...: the text before the parenthesis has no parenthesis, neither has the one after it *)
Definition hsl_text (color : str) (hue saturation lightness : Z) : Prop :=
  exists x f1 f2 f3 y, color = lit "hsl" ++ x ++ lit "(" ++ f1 ++ lit "," ++ f2 ++ lit "," ++ f3 ++ lit ")" ++ y /\
    ~ In (ch "(") x /\ ~ In (ch ")") y /\ a_field f1 hue /\ a_field f2 saturation /\ a_field f3 lightness.

(** The texts that int() reads, and the integer: blanks, a sign or none, digits with single underscores between them, blanks *)
Definition int_text (s : str) (n : Z) : Prop :=
  exists b sign d groups b', s = b ++ sign ++ (d ++ flat_map (fun g => lit "_" ++ g) groups) ++ b' /\ Forall (fun c => isspace c = true) b /\ Forall (fun c => isspace c = true) b' /\
    numeral d /\ Forall numeral groups /\
    ((sign = [] \/ sign = lit "+") /\ n = numeral_value (d ++ concat groups) \/ sign = lit "-" /\ n = (- numeral_value (d ++ concat groups))%Z).
(** The three integers read in the text of a color that starts with "hsl": they are separated by commas, the signs % are dropped, and they stand between the first opening and the last closing parenthesis;
    without closing parenthesis, the last character is dropped *)
Definition hsl_reads (color : str) (hue saturation lightness : Z) : Prop :=
  exists p f1 f2 f3 y, color = lit "hsl" ++ p ++ lit "(" ++ (f1 ++ lit "," ++ f2 ++ lit "," ++ f3) ++ y /\ ~ In (ch "(") p /\
    ((exists y', y = lit ")" ++ y' /\ ~ In (ch ")") y') \/ (List.length y = 1 /\ ~ In (ch ")") color)) /\
    ~ In (ch ",") f1 /\ ~ In (ch ",") f2 /\ ~ In (ch ",") f3 /\
    int_text (filter (fun c => negb (N.eqb c (ch "%"))) f1) hue /\ int_text (filter (fun c => negb (N.eqb c (ch "%"))) f2) saturation /\ int_text (filter (fun c => negb (N.eqb c (ch "%"))) f3) lightness.
