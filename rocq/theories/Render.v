(** Model of the functions that call the program dot (src/pybgl/graphviz.py), of src/pybgl/html.py and of src/pybgl/ipynb.py. *)
From Coq Require Import String ZArith.
From Verif Require Import Str Graphviz Base.
Open Scope string_scope.
Open Scope nat_scope.
Open Scope list_scope.

(** ** The format operator of Python, used by html.py:40-62, ipynb.py:49-50, 67, 98, 118 *)

(** the right operand of the operator: a string, or a dict of strings (html.py:56-62) *)
Inductive fmt_arg := AStr (s : str) | AMap (d : dict str str).
(** the options of a conversion: left justified, width, precision, the value found with a key (PyUnicode_Format of CPython, called by html.py:40-62) *)
Record fmt_opts := mkFmt { f_left : bool; f_width : option nat; f_prec : option nat; f_value : option str }.
(** where the reading of the format is (PyUnicode_Format of CPython, called by html.py:40-62): in the text, after a percent sign, in a key with its depth of
    parentheses, in the flags, in the width, at the beginning of a precision, in the precision, after the length modifier *)
Inductive phase := PText | PStart | PKey (depth : nat) (key : str) | PFlags (f : fmt_opts) | PWidth (f : fmt_opts) | PPoint (f : fmt_opts) | PPrec (f : fmt_opts) | PConv (f : fmt_opts).

Section Percent.
  (** [repr] and [ascii] on a string *)
  Variables py_repr py_ascii : str -> str.
  (** no option yet (PyUnicode_Format, called by html.py:40-62) *)
  Definition no_opts : fmt_opts := mkFmt false None None None.
  (** one more digit of a number. Simplification: a huge width does not raise (PyUnicode_Format, called by html.py:40-62). *)
  Definition digit_of (n : option nat) (c : char) : option nat :=
    Some (match n with Some n => n | None => 0 end * 10 + (N.to_nat c - 48)).
  (** the padding of a converted value (PyUnicode_Format, called by html.py:40-62) *)
  Definition pad (f : fmt_opts) (s : str) : str :=
    let fill := repeat (ch " ") (match f_width f with Some w => w | None => 0 end - List.length s) in
    if f_left f then s ++ fill else fill ++ s.
  (** the truncation to the precision (PyUnicode_Format, called by html.py:40-62) *)
  Definition cut (f : fmt_opts) (s : str) : str := match f_prec f with Some n => firstn n s | None => s end.
  (** the conversion [c] of the string [v]: a string is not a number, an unknown conversion raises ValueError (PyUnicode_Format, called by html.py:40-62) *)
  Definition convert (f : fmt_opts) (c : char) (v : str) : res str :=
    if eqb c (ch "s") then Ok (pad f (cut f v))
    else if eqb c (ch "r") then Ok (pad f (cut f (py_repr v)))
    else if eqb c (ch "a") then Ok (pad f (cut f (py_ascii v)))
    else if eqb c (ch "c") then match v with [_] => Ok (pad f v) | _ => Raise TypeError end
    else if mem c (lit "diouxXeEfFgG") then Raise TypeError
    else Raise ValueError.
  (** [format % arg] from the given phase; [used]: the string has been converted. At the end, a string that has not been converted raises TypeError, an
      unfinished conversion raises ValueError. Simplification: a conversion without key on a dict raises TypeError (PyUnicode_Format, called by html.py:40-62). *)
  Fixpoint pct (arg : fmt_arg) (p : phase) (used : bool) (s : str) : res str :=
    match s with
    | [] =>
        match p with
        | PText => match arg with AStr _ => if used then Ok [] else Raise TypeError | AMap _ => Ok [] end
        | _ => Raise ValueError
        end
    | c :: s =>
        let conv f :=
          if eqb c (ch "%") then rbind (pct arg PText used s) (fun r => Ok (c :: r))
          else
            match f_value f, arg with
            | Some v, _ => rbind (convert f c v) (fun x => rbind (pct arg PText used s) (fun r => Ok (x ++ r)))
            | None, AStr v => if used then Raise TypeError else rbind (convert f c v) (fun x => rbind (pct arg PText true s) (fun r => Ok (x ++ r)))
            | None, AMap _ => Raise TypeError
            end in
        let len f := if mem c (lit "hlL") then pct arg (PConv f) used s else conv f in
        let point f := if eqb c (ch ".") then pct arg (PPoint (mkFmt (f_left f) (f_width f) (Some 0) (f_value f))) used s else len f in
        let width f := if isdigit c then pct arg (PWidth (mkFmt (f_left f) (digit_of (f_width f) c) (f_prec f) (f_value f))) used s else point f in
        let prec f := if isdigit c then pct arg (PPrec (mkFmt (f_left f) (f_width f) (digit_of (f_prec f) c) (f_value f))) used s else len f in
        let flags f :=
          if eqb c (ch "-") then pct arg (PFlags (mkFmt true (f_width f) (f_prec f) (f_value f))) used s
          else if mem c (lit "+ #0") then pct arg (PFlags f) used s
          else if eqb c (ch "*") then Raise TypeError
          else width f in
        match p with
        | PText => if eqb c (ch "%") then pct arg PStart used s else rbind (pct arg PText used s) (fun r => Ok (c :: r))
        | PStart =>
            if eqb c (ch "(") then match arg with AStr _ => Raise TypeError | AMap _ => pct arg (PKey 1 []) used s end
            else flags no_opts
        | PKey depth key =>
            if eqb c (ch ")") then
              match depth with
              | S (S d) => pct arg (PKey (S d) (key ++ [c])) used s
              | _ =>
                  match arg with
                  | AMap d => match dget d key with Some v => pct arg (PFlags (mkFmt false None None (Some v))) used s | None => Raise KeyError end
                  | AStr _ => Raise TypeError
                  end
              end
            else pct arg (PKey (if eqb c (ch "(") then S depth else depth) (key ++ [c])) used s
        | PFlags f => flags f
        | PWidth f => width f
        | PPoint f => if eqb c (ch "*") then Raise TypeError else prec f
        | PPrec f => prec f
        | PConv f => conv f
        end
    end.
  (** [format % arg], html.py:40-62, ipynb.py:50, 67, 98, 118 *)
  Definition percent (format : str) (arg : fmt_arg) : res str := pct arg PText false format.
End Percent.

(** ** UTF-8 *)

(** [s.encode("utf-8")], graphviz.py:250; a byte is a number below 256. UnicodeEncodeError (a surrogate) is the exception ValueError, its base class. *)
Definition encode_char (c : char) : res (list N) :=
  (if c <? 128 then Ok [c]
   else if c <? 2048 then Ok [192 + c / 64; 128 + c mod 64]
   else if (55296 <=? c) && (c <=? 57343) then Raise ValueError
   else if c <? 65536 then Ok [224 + c / 4096; 128 + (c / 64) mod 64; 128 + c mod 64]
   else Ok [240 + c / 262144; 128 + (c / 4096) mod 64; 128 + (c / 64) mod 64; 128 + c mod 64])%N.
(** [s.encode("utf-8")], graphviz.py:250 *)
Fixpoint utf8_encode (s : str) : res (list N) :=
  match s with [] => Ok [] | c :: s => rbind (encode_char c) (fun b => rbind (utf8_encode s) (fun l => Ok (b ++ l))) end.
(** is the byte in this interval? (the decoder of CPython, called by graphviz.py:254) *)
Definition byte_in (a b x : N) : bool := ((a <=? x) && (x <=? b))%N.
(** [b.decode("utf-8")], graphviz.py:254, 261, 286, 322: the ill-formed sequences raise UnicodeDecodeError, modelled by ValueError, its base class. *)
Fixpoint utf8_decode (l : list N) : res str :=
  let more c r := rbind (utf8_decode r) (fun s => Ok (c :: s)) in
  match l with
  | [] => Ok []
  | a :: l =>
      (if a <? 128 then more a l
       else match l with
       | [] => Raise ValueError
       | b :: l =>
           if byte_in 194 223 a && byte_in 128 191 b then more ((a - 192) * 64 + (b - 128)) l
           else match l with
           | [] => Raise ValueError
           | c :: l =>
               if byte_in 224 239 a && byte_in (if a =? 224 then 160 else 128) (if a =? 237 then 159 else 191) b && byte_in 128 191 c
               then more ((a - 224) * 4096 + (b - 128) * 64 + (c - 128)) l
               else match l with
               | [] => Raise ValueError
               | d :: l =>
                   if byte_in 240 244 a && byte_in (if a =? 240 then 144 else 128) (if a =? 244 then 143 else 191) b && byte_in 128 191 c && byte_in 128 191 d
                   then more ((a - 240) * 262144 + (b - 128) * 4096 + (c - 128) * 64 + (d - 128)) l
                   else Raise ValueError
               end
           end
       end)%N
  end.

(** ** The functions *)

(** The files (their texts), what the notebook displays (the last first), what is printed on the standard error (the last first): the effects of graphviz.py:222-331,
    html.py:7-17, ipynb.py:53-124. *)
Record world := mkWorld { files : dict str str; shown : list str; printed : list str }.
(** the result of run_graphviz, graphviz.py:252-256: a string or bytes *)
Inductive image := Text (s : str) | Bytes (b : list N).
(** the argument filename of write_graphviz, graphviz.py:294, 327-331: a path, or an open file, written at its end *)
Inductive out_file := Path (name : str) | Opened (name : str).

(** [str] on the status of a process, graphviz.py:259 *)
Definition str_int (n : Z) : str :=
  match n with Z0 => str_nat 0 | Zpos p => str_nat (Pos.to_nat p) | Zneg p => lit "-" ++ str_nat (Pos.to_nat p) end.
(** [print(s, file=f)], graphviz.py:322, ipynb.py:95. Simplification: the text can be encoded and the end of line is not translated. *)
Definition print_to (w : world) (name : str) (s : str) : world :=
  mkWorld (dset (files w) name (match dget (files w) name with Some t => t | None => [] end ++ s ++ [10%N])) (shown w) (printed w).
(** [open(name, "w")], graphviz.py:328, ipynb.py:94. Simplification: it does not raise. *)
Definition open_w (w : world) (name : str) : world := mkWorld (dset (files w) name []) (shown w) (printed w).
(** error, graphviz.py:222-226 *)
Definition print_error (w : world) (s : str) : world := mkWorld (files w) (shown w) ((s ++ [10%N]) :: printed w).
(** html, html.py:7-17. Simplification: IPython is installed. *)
Definition html (w : world) (s : str) : world := mkWorld (files w) (s :: shown w) (printed w).

Section Render.
  (** The program dot, run by Popen (graphviz.py:248-251) with its arguments and its input: its status, what it writes on its output and on its standard error.
      Simplification: the program is installed, its answer depends on nothing else. *)
  Variable dot : list str -> list N -> Z * list N * list N.
  Variables py_repr py_ascii : str -> str.

  (** run_graphviz, graphviz.py:229-264 *)
  Definition run_graphviz (w : world) (s_dot : str) (engine : option str) (format : str) : world * res image :=
    let engine := match engine with None => lit "dot" | Some e => e end in
    match utf8_encode s_dot with
    | Raise e => (w, Raise e)
    | Ok input =>
        let '(status, stdout, stderr) := dot [lit "dot"; lit "-T" ++ format; lit "-K"; engine] input in
        if (status =? 0)%Z then
          (w, if eqb format (lit "svg") then rbind (utf8_decode stdout) (fun s => Ok (Text s)) else Ok (Bytes stdout))
        else
          match utf8_decode stderr with
          | Raise e => (w, Raise e)
          | Ok msg =>
              (print_error w (lit "dot returned " ++ str_int status ++ [10%N] ++ lit "[==== stderr ====]" ++ [10%N] ++ msg ++ [10%N]
                 ++ lit "Input dot string was:" ++ [10%N] ++ s_dot ++ [10%N]), Raise RuntimeError)
          end
    end.
  (** does [s] begin with [sub]? (str.find, called by graphviz.py:288) *)
  Fixpoint starts (sub s : str) : bool :=
    match sub, s with [], _ => true | a :: sub, b :: s => eqb a b && starts sub s | _ :: _, [] => false end.
  (** [s[s.find(sub):]], graphviz.py:288-289: without occurrence the index is -1, which leaves the last character *)
  Fixpoint from_find (sub s : str) (last : str) : str :=
    if starts sub s then s else match s with [] => last | c :: s' => from_find sub s' [c] end.
  (** dot_to_svg, graphviz.py:267-289 *)
  Definition dot_to_svg (w : world) (s_dot : str) (engine : option str) (format : str) : world * res str :=
    match run_graphviz w s_dot engine format with
    | (w, Raise e) => (w, Raise e)
    | (w, Ok (Bytes b)) => (w, utf8_decode b)
    | (w, Ok (Text s)) => (w, Ok (from_find (lit "<svg") s []))
    end.
  (** write_graphviz_impl, graphviz.py:314-325: a string has no method decode *)
  Definition write_graphviz_impl (w : world) (s_dot : str) (name : str) (format : str) (engine : option str) : world * res bool :=
    match run_graphviz w s_dot engine format with
    | (w, Raise e) => (w, Raise e)
    | (w, Ok (Text [])) | (w, Ok (Bytes [])) => (w, Ok false)
    | (w, Ok (Text _)) => (w, Raise AttributeError)
    | (w, Ok (Bytes b)) =>
        match utf8_decode b with
        | Raise e => (w, Raise e)
        | Ok s => (print_to w name s, Ok true)
        end
    end.
  (** write_graphviz, graphviz.py:292-331 *)
  Definition write_graphviz (w : world) (s_dot : str) (f : out_file) (engine : option str) (format : str) : world * res bool :=
    match f with
    | Path name => write_graphviz_impl (open_w w name) s_dot name format engine
    | Opened name => write_graphviz_impl w s_dot name format engine
    end.
  (** dotstr_to_html, graphviz.py:334-348: run_graphviz returns a string for this format *)
  Definition dotstr_to_html (w : world) (s_dot : str) (engine : option str) : world * res str :=
    match run_graphviz w s_dot engine (lit "svg") with
    | (w, Raise e) => (w, Raise e)
    | (w, Ok (Text s)) => (w, Ok s)
    | (w, Ok (Bytes _)) => (w, Raise TypeError)
    end.
  (** graph_to_html, graphviz.py:351-363; [s_dot]: the result of g.to_dot *)
  Definition graph_to_html (w : world) (s_dot : res str) (engine : option str) : world * res str :=
    match s_dot with Raise e => (w, Raise e) | Ok s_dot => dotstr_to_html w s_dot engine end.

  (** beside, html.py:20-62 *)
  Definition beside_format : str :=
    let nl := [10%N] in
    nl ++ lit "        %(title)s" ++ nl
    ++ lit "        <div style=""display: table; width:100%%"">" ++ nl
    ++ lit "            <div style=""display: table-row"">" ++ nl
    ++ lit "                <div style=""width: 50%%; padding: 2%%; display: table-cell;"">" ++ nl
    ++ lit "                    <b>%(title1)s</b>" ++ nl
    ++ lit "                    <pre>%(contents1)s</pre>" ++ nl
    ++ lit "                </div>" ++ nl
    ++ lit "                <div style=""width: 50%%; padding: 2%%; display: table-cell;"">" ++ nl
    ++ lit "                    <b>%(title2)s</b>" ++ nl
    ++ lit "                    <pre>%(contents2)s</pre>" ++ nl
    ++ lit "                </div>" ++ nl
    ++ lit "            </div>" ++ nl
    ++ lit "        </div>" ++ nl
    ++ lit "        ".
  (** beside, html.py:20-62 *)
  Definition beside (contents1 contents2 title title1 title2 : str) : res str :=
    percent py_repr py_ascii beside_format
      (AMap [(lit "title", title); (lit "title1", title1); (lit "title2", title2); (lit "contents1", contents1); (lit "contents2", contents2)]).

  (** background_template_html, ipynb.py:30-50 *)
  Definition background_template_html (color : option str) : res str :=
    match color with
    | None | Some [] => Ok (lit "%s")
    | Some color => percent py_repr py_ascii (lit "<div style='background-color:%s'>%%s</div>") (AStr color)
    end.
  (** ipynb_display_graph, ipynb.py:53-70; [s_dot]: the result of g.to_dot; [engine]: the value of kwargs["engine"], if this key is present *)
  Definition ipynb_display_graph (w : world) (s_dot : res str) (color : option str) (engine : option (option str)) : world * res unit :=
    match background_template_html color with
    | Raise e => (w, Raise e)
    | Ok template =>
        match graph_to_html w s_dot (match engine with None => Some (lit "dot") | Some e => e end) with
        | (w, Raise e) => (w, Raise e)
        | (w, Ok s) => match percent py_repr py_ascii template (AStr s) with Raise e => (w, Raise e) | Ok t => (html w t, Ok tt) end
        end
    end.
  (** display_svg, ipynb.py:73-98 *)
  Definition display_svg (w : world) (svg filename_svg : str) (color : option str) : world * res unit :=
    let w := print_to (open_w w filename_svg) filename_svg svg in
    let w := html w (lit "<a href='" ++ filename_svg ++ lit "' target='_blank'>View</a>") in
    match background_template_html color with
    | Raise e => (w, Raise e)
    | Ok template => match percent py_repr py_ascii template (AStr svg) with Raise e => (w, Raise e) | Ok t => (html w t, Ok tt) end
    end.
  (** display_body, ipynb.py:101-124 *)
  Definition display_body (w : world) (body_html filename_html : str) (color : option str) : world * res unit :=
    match percent py_repr py_ascii (lit "<html> <head>  <meta charset='UTF-8'> </head> <body>%s</body></html>") (AStr body_html) with
    | Raise e => (w, Raise e)
    | Ok s => display_svg w s filename_html color
    end.
End Render.
