(** C114: write_graphviz. C115: the HTML templates and the functions that display. C116: the text given to dot and its answer. *)
From Coq Require Import String ZArith.
From Verif Require Import Str Graphviz Render RenderSpec RenderProofs.
From Verif Require Import Base BaseProofs.
Open Scope string_scope.
Open Scope nat_scope.
Open Scope list_scope.

(** the text of a file, empty when there is no such file *)
Definition content (w : world) (name : str) : str := match dget (files w) name with Some t => t | None => [] end.
(** an integer in decimal *)
Definition decimal (n : Z) : str := if (n <? 0)%Z then lit "-" ++ str_nat (Z.to_nat (- n)) else str_nat (Z.to_nat n).
(** what is printed when dot fails *)
Definition failure_message (status : Z) (stderr s_dot : str) : str :=
  lit "dot returned " ++ decimal status ++ [10%N] ++ lit "[==== stderr ====]" ++ [10%N] ++ stderr ++ [10%N] ++ lit "Input dot string was:" ++ [10%N] ++ s_dot ++ [10%N; 10%N].

Section Theorems.
  Variable dot : list str -> list N -> Z * list N * list N.
  Variables py_repr py_ascii : str -> str.

  (** ** C116 *)
  Theorem C116_encode s : py_string s -> match utf8_encode s with Ok l => utf8 s l | Raise e => e = ValueError /\ exists c, In c s /\ surrogate c end.
  Proof. apply encode_ok. Qed.
  Theorem C116_decode l : match utf8_decode l with Ok s => utf8 s l | Raise e => e = ValueError /\ undecodable l end.
  Proof.
    pose proof (decode_sound l) as K. destruct (utf8_decode l) eqn:E; [exact K|]. split; [exact K|]. intros t U. apply decode_iff in U. congruence.
  Qed.
  (** A text has at most one encoding and an encoding is that of at most one text. *)
  Theorem C116_bijection s l s' l' : utf8 s l -> utf8 s' l' -> (s = s' <-> l = l').
  Proof.
    intros U U'. split.
    - intros <-. destruct (utf8_chars s l U) as [P _]. apply (encode_iff s l P) in U. apply (encode_iff s l' P) in U'. congruence.
    - intros <-. apply decode_iff in U, U'. congruence.
  Qed.

  (** What dot reads is the encoding of the text; its answer is decoded for the format svg, and returned as it is otherwise. *)
  Theorem C116_run_graphviz w s_dot engine format : py_string s_dot ->
    let '(w', r) := run_graphviz dot w s_dot engine format in
    files w' = files w /\ shown w' = shown w /\
    match r with
    | Ok (Text t) => format = lit "svg" /\ printed w' = printed w /\ exists input out err, utf8 s_dot input /\ dot (command engine format) input = (0%Z, out, err) /\ utf8 t out
    | Ok (Bytes b) => format <> lit "svg" /\ printed w' = printed w /\ exists input err, utf8 s_dot input /\ dot (command engine format) input = (0%Z, b, err)
    | Raise RuntimeError => exists input status out err m, utf8 s_dot input /\ dot (command engine format) input = (status, out, err) /\ status <> 0%Z /\ utf8 m err /\
        printed w' = failure_message status m s_dot :: printed w
    | Raise ValueError => printed w' = printed w /\ ((exists c, In c s_dot /\ surrogate c) \/
        exists input status out err, utf8 s_dot input /\ dot (command engine format) input = (status, out, err) /\
          ((status = 0%Z /\ format = lit "svg" /\ undecodable out) \/ (status <> 0%Z /\ undecodable err)))
    | Raise _ => False
    end.
  Proof.
    intros P. unfold run_graphviz. pose proof (C116_encode s_dot P) as K. destruct (utf8_encode s_dot) as [input|e].
    2:{ destruct K as [-> S]. auto. }
    fold (command engine format). destruct (dot (command engine format) input) as [[status out] err] eqn:D. destruct (Z.eqb_spec status 0) as [->|NZ].
    - destruct (eqb_spec format (lit "svg")) as [->|NF].
      + pose proof (C116_decode out) as DE. destruct (utf8_decode out) as [t|e]; cbn [rbind]; (split; [reflexivity|]; split; [reflexivity|]).
        * split; [reflexivity|]. split; [reflexivity|]. now exists input, out, err.
        * destruct DE as [-> U]. split; [reflexivity|]. right. exists input, 0%Z, out, err. auto 6.
      + split; [reflexivity|]. split; [reflexivity|]. split; [exact NF|]. split; [reflexivity|]. now exists input, err.
    - pose proof (C116_decode err) as DE. destruct (utf8_decode err) as [m|e].
      + split; [reflexivity|]. split; [reflexivity|]. exists input, status, out, err, m. split; [exact K|]. split; [exact D|]. split; [exact NZ|]. split; [exact DE|].
        cbn [print_error printed]. f_equal. unfold failure_message. replace (str_int status) with (decimal status) by (destruct status; reflexivity). rewrite <- !app_assoc. reflexivity.
      + destruct DE as [-> U]. split; [reflexivity|]. split; [reflexivity|]. split; [reflexivity|]. right. exists input, status, out, err. auto 6.
  Qed.

  (** dot_to_svg returns the answer of dot from its first <svg; without such a tag, the last character of the answer. *)
  Theorem C116_dot_to_svg w s_dot engine : py_string s_dot ->
    let '(w', r) := dot_to_svg dot w s_dot engine (lit "svg") in
    files w' = files w /\ shown w' = shown w /\
    match r with
    | Ok t => exists input out err u, utf8 s_dot input /\ dot (command engine (lit "svg")) input = (0%Z, out, err) /\ utf8 u out /\
        (from_first (lit "<svg") u t \/ ~ (exists a b, u = a ++ lit "<svg" ++ b) /\ t = match rev u with [] => [] | c :: _ => [c] end)
    | Raise e => snd (run_graphviz dot w s_dot engine (lit "svg")) = Raise e
    end.
  Proof.
    intros P. unfold dot_to_svg. pose proof (C116_run_graphviz w s_dot engine (lit "svg") P) as K. destruct (run_graphviz dot w s_dot engine (lit "svg")) as [w' [[t|b]|e]].
    - destruct K as (F & S & _ & _ & input & out & err & U & D & UT). split; [exact F|]. split; [exact S|]. exists input, out, err, t. split; [exact U|]. split; [exact D|]. split; [exact UT|].
      destruct (from_find_spec (lit "<svg") t []) as [(t' & FF & ->)|[N ->]]; auto.
    - destruct K as (_ & _ & N & _). congruence.
    - destruct K as (F & S & _). auto.
  Qed.

  (** ** C114 *)
  (** The cases exclude each other, so that this is exact: True is only returned for a format other than svg, after the answer of dot has been written, with an end of line;
      otherwise nothing is written, and a file given by its path is left empty. *)
  Theorem C114_write w s_dot f engine format : py_string s_dot ->
    let name := match f with Path n => n | Opened n => n end in
    let before := match f with Path _ => [] | Opened _ => content w name end in
    let '(w', r) := write_graphviz dot w s_dot f engine format in
    (forall n, n <> name -> dget (files w') n = dget (files w) n) /\ shown w' = shown w /\
    match r with
    | Ok true => format <> lit "svg" /\ printed w' = printed w /\ exists input out err t, utf8 s_dot input /\ dot (command engine format) input = (0%Z, out, err) /\ utf8 t out /\ t <> [] /\
        content w' name = before ++ t ++ [10%N]
    | Ok false => content w' name = before /\ printed w' = printed w /\ exists input err, utf8 s_dot input /\ dot (command engine format) input = (0%Z, [], err)
    | Raise AttributeError => content w' name = before /\ printed w' = printed w /\ format = lit "svg" /\
        exists input out err t, utf8 s_dot input /\ dot (command engine format) input = (0%Z, out, err) /\ utf8 t out /\ t <> []
    | Raise RuntimeError => content w' name = before /\ exists input status out err m, utf8 s_dot input /\ dot (command engine format) input = (status, out, err) /\ status <> 0%Z /\ utf8 m err /\
        printed w' = failure_message status m s_dot :: printed w
    | Raise ValueError => content w' name = before /\ printed w' = printed w /\ ((exists c, In c s_dot /\ surrogate c) \/
        exists input status out err, utf8 s_dot input /\ dot (command engine format) input = (status, out, err) /\
          ((status = 0%Z /\ undecodable out) \/ (status <> 0%Z /\ undecodable err)))
    | Raise _ => False
    end.
  Proof.
    intros P name before.
    assert (U0 : forall t, utf8 t [] -> t = []) by (intros t U; apply decode_iff in U; cbn in U; congruence).
    assert (U1 : forall out, utf8 [] out -> out = []) by (intros out (bs & F & ->); inversion F; reflexivity).
    assert (IMPL : forall w0, (forall n, n <> name -> dget (files w0) n = dget (files w) n) -> shown w0 = shown w -> printed w0 = printed w -> content w0 name = before ->
      let '(w', r) := write_graphviz_impl dot w0 s_dot name format engine in
      (forall n, n <> name -> dget (files w') n = dget (files w) n) /\ shown w' = shown w /\
      match r with
      | Ok true => format <> lit "svg" /\ printed w' = printed w /\ exists input out err t, utf8 s_dot input /\ dot (command engine format) input = (0%Z, out, err) /\ utf8 t out /\ t <> [] /\
          content w' name = before ++ t ++ [10%N]
      | Ok false => content w' name = before /\ printed w' = printed w /\ exists input err, utf8 s_dot input /\ dot (command engine format) input = (0%Z, [], err)
      | Raise AttributeError => content w' name = before /\ printed w' = printed w /\ format = lit "svg" /\
          exists input out err t, utf8 s_dot input /\ dot (command engine format) input = (0%Z, out, err) /\ utf8 t out /\ t <> []
      | Raise RuntimeError => content w' name = before /\ exists input status out err m, utf8 s_dot input /\ dot (command engine format) input = (status, out, err) /\ status <> 0%Z /\ utf8 m err /\
          printed w' = failure_message status m s_dot :: printed w
      | Raise ValueError => content w' name = before /\ printed w' = printed w /\ ((exists c, In c s_dot /\ surrogate c) \/
          exists input status out err, utf8 s_dot input /\ dot (command engine format) input = (status, out, err) /\
            ((status = 0%Z /\ undecodable out) \/ (status <> 0%Z /\ undecodable err)))
      | Raise _ => False
      end).
    { intros w0 FW SW PW CW. unfold write_graphviz_impl. pose proof (C116_run_graphviz w0 s_dot engine format P) as K.
      destruct (run_graphviz dot w0 s_dot engine format) as [w1 [[t|b]|e]]; destruct K as (F1 & S1 & K).
      - destruct K as (-> & P1 & input & out & err & U & D & UT). assert (C1 : content w1 name = before) by (unfold content in *; now rewrite F1).
        destruct t as [|c t]; (split; [intros n N; rewrite F1; now apply FW|]; split; [congruence|]; split; [exact C1|]; split; [congruence|]).
        + apply U1 in UT. subst out. now exists input, err.
        + split; [reflexivity|]. exists input, out, err, (c :: t). repeat split; try assumption. discriminate.
      - destruct K as (NF & P1 & input & err & U & D). assert (C1 : content w1 name = before) by (unfold content in *; now rewrite F1).
        destruct b as [|b0 b].
        + split; [intros n N; rewrite F1; now apply FW|]. split; [congruence|]. split; [exact C1|]. split; [congruence|]. now exists input, err.
        + pose proof (C116_decode (b0 :: b)) as DE. destruct (utf8_decode (b0 :: b)) as [t|e].
          * split; [|split; [cbn [print_to shown]; congruence|]].
            -- intros n N. cbn [print_to files]. rewrite dget_dset. destruct (eqb_spec n name); [congruence|]. rewrite F1. now apply FW.
            -- split; [exact NF|]. split; [cbn [print_to printed]; congruence|]. exists input, (b0 :: b), err, t. split; [exact U|]. split; [exact D|]. split; [exact DE|]. split.
               ++ intros ->. apply U1 in DE. discriminate.
               ++ unfold content at 1. cbn [print_to files]. rewrite dget_dset, eqb_refl. change (content w1 name ++ t ++ [10%N] = before ++ t ++ [10%N]). now rewrite C1.
          * destruct DE as [-> UD]. split; [intros n N; rewrite F1; now apply FW|]. split; [congruence|]. split; [exact C1|]. split; [congruence|]. right. exists input, 0%Z, (b0 :: b), err. auto.
      - assert (C1 : content w1 name = before) by (unfold content in *; now rewrite F1). split; [intros n N; rewrite F1; now apply FW|]. split; [congruence|].
        destruct e; try destruct K.
        + split; [exact C1|]. split; [congruence|]. destruct H0 as [S|(input & status & out & err & U & D & [(A & _ & B)|B])]; [now left|right; exists input, status, out, err; auto|right; exists input, status, out, err; auto].
        + split; [exact C1|]. destruct H as (status & out & err & m & U & D & NZ & UM & PM). exists x, status, out, err, m. rewrite <- PW. auto. }
    destruct f as [n|n]; cbn [write_graphviz].
    - apply (IMPL (open_w w n)); try reflexivity.
      + intros n' N. cbn [open_w files]. rewrite dget_dset. destruct (eqb_spec n' n); [contradiction|reflexivity].
      + unfold content. cbn [open_w files]. unfold name. rewrite dget_dset, eqb_refl. reflexivity.
    - apply (IMPL w); reflexivity.
  Qed.
  (** With the default format, the function never succeeds. *)
  Theorem C114_svg_never w s_dot f engine : py_string s_dot -> snd (write_graphviz dot w s_dot f engine (lit "svg")) <> Ok true.
  Proof.
    intros P. pose proof (C114_write w s_dot f engine (lit "svg") P) as K. cbv zeta in K. destruct (write_graphviz dot w s_dot f engine (lit "svg")) as [w' r]. cbn [snd].
    intros ->. destruct K as (_ & _ & N & _). congruence.
  Qed.

  (** graph_to_html returns the whole answer. *)
  Theorem C116_graph_to_html w s_dot engine : py_string s_dot ->
    let '(w', r) := graph_to_html dot w (Ok s_dot) engine in
    files w' = files w /\ shown w' = shown w /\
    match r with
    | Ok t => exists input out err, utf8 s_dot input /\ dot (command engine (lit "svg")) input = (0%Z, out, err) /\ utf8 t out
    | Raise e => snd (run_graphviz dot w s_dot engine (lit "svg")) = Raise e
    end.
  Proof.
    intros P. unfold graph_to_html, dotstr_to_html. pose proof (C116_run_graphviz w s_dot engine (lit "svg") P) as K. destruct (run_graphviz dot w s_dot engine (lit "svg")) as [w' [[t|b]|e]].
    - destruct K as (F & S & _ & _ & K). auto.
    - destruct K as (_ & _ & N & _). congruence.
    - destruct K as (F & S & _). auto.
  Qed.

  (** ** C115 *)
  (** The text is wrapped in a block of the given color exactly when the color contains no percent sign. *)
  Theorem C115_template color s :
    rbind (background_template_html py_repr py_ascii color) (fun t => percent py_repr py_ascii t (AStr s)) = Ok (wrapped color s) <-> ~ with_percent color.
  Proof. pose proof (template_spec py_repr py_ascii color s) as K. destruct (background_template_html py_repr py_ascii color) as [t|]; [exact K|destruct K]. Qed.
  Theorem C115_beside contents1 contents2 title title1 title2 :
    beside py_repr py_ascii contents1 contents2 title title1 title2 = Ok (two_columns contents1 contents2 title title1 title2).
  Proof. unfold two_columns. cbv zeta. rewrite <- !app_assoc. vm_compute. reflexivity. Qed.
  (** The file holds the text and the link is shown whatever the color; then the text is shown. *)
  Theorem C115_display_svg w svg name color :
    let '(w', r) := display_svg py_repr py_ascii w svg name color in
    dget (files w') name = Some (svg ++ [10%N]) /\ (forall n, n <> name -> dget (files w') n = dget (files w) n) /\ printed w' = printed w /\
    match r with
    | Ok _ => exists t, shown w' = t :: link name :: shown w /\ (t = wrapped color svg <-> ~ with_percent color)
    | Raise _ => shown w' = link name :: shown w /\ with_percent color
    end.
  Proof.
    unfold display_svg. pose proof (template_spec py_repr py_ascii color svg) as K. destruct (background_template_html py_repr py_ascii color) as [t|]; [|destruct K].
    destruct (percent py_repr py_ascii t (AStr svg)) as [u|e]; cbn [html print_to open_w files shown printed]; rewrite !dget_dset, eqb_refl;
      (split; [reflexivity|]; split; [intros n N; rewrite !dget_dset; destruct (eqb_spec n name); [contradiction|reflexivity]|]; split; [reflexivity|]).
    - exists u. split; [reflexivity|]. rewrite <- K. split; congruence.
    - split; [reflexivity|]. destruct color as [c|]; cbn [with_percent] in *.
      + destruct (mem_reflect (ch "%") c) as [I|N]; [exact I|]. apply K in N. discriminate.
      + pose proof (proj2 K (fun x => x)). discriminate.
  Qed.
  Theorem C115_display_body w body name color : display_body py_repr py_ascii w body name color = display_svg py_repr py_ascii w (page body) name color.
  Proof. unfold display_body, percent. change (lit "<html> <head>  <meta charset='UTF-8'> </head> <body>%s</body></html>") with (lit "<html> <head>  <meta charset='UTF-8'> </head> <body>" ++ lit "%s</body></html>").
    rewrite pct_text by (intros J; vm_compute in J; intuition discriminate). reflexivity. Qed.
  (** The graph is shown, or an exception leaves the notebook as it was. *)
  Theorem C115_ipynb_display_graph w s_dot color engine : py_string s_dot ->
    let eng := match engine with None => Some (lit "dot") | Some e => e end in
    let '(w', r) := ipynb_display_graph dot py_repr py_ascii w (Ok s_dot) color engine in
    files w' = files w /\
    match r with
    | Ok _ => exists input out err u t, utf8 s_dot input /\ dot (command eng (lit "svg")) input = (0%Z, out, err) /\ utf8 u out /\ shown w' = t :: shown w /\ (t = wrapped color u <-> ~ with_percent color)
    | Raise e => shown w' = shown w /\ (with_percent color \/ snd (run_graphviz dot w s_dot eng (lit "svg")) = Raise e)
    end.
  Proof.
    intros P eng. unfold ipynb_display_graph. pose proof (fun u => template_spec py_repr py_ascii color u) as K. destruct (background_template_html py_repr py_ascii color) as [t|]; [|destruct (K [])].
    fold eng. pose proof (C116_graph_to_html w s_dot eng P) as G. destruct (graph_to_html dot w (Ok s_dot) eng) as [w1 [u|e]]; destruct G as (F & S & G).
    - specialize (K u). destruct (percent py_repr py_ascii t (AStr u)) as [v|e].
      + cbn [html files shown]. split; [exact F|]. destruct G as (input & out & err & U & D & UT). exists input, out, err, u, v. split; [exact U|]. split; [exact D|]. split; [exact UT|]. split; [now rewrite S|].
        rewrite <- K. split; congruence.
      + split; [exact F|]. split; [exact S|]. left. destruct color as [c|]; cbn [with_percent] in *.
        * destruct (mem_reflect (ch "%") c) as [I|N]; [exact I|]. apply K in N. discriminate.
        * pose proof (proj2 K (fun x => x)). discriminate.
    - split; [exact F|]. split; [exact S|]. right. exact G.
  Qed.
  (** If to_dot raises, nothing is shown. *)
  Theorem C115_ipynb_raise w e color engine : ipynb_display_graph dot py_repr py_ascii w (Raise e) color engine = (w, Raise e).
  Proof. unfold ipynb_display_graph. pose proof (template_spec py_repr py_ascii color []) as K. destruct (background_template_html py_repr py_ascii color); [reflexivity|destruct K]. Qed.
End Theorems.

(** The color of a CSS function with percentages makes the template raise ValueError; one with two percent signs loses one of them. *)
Theorem C115_template_refuted : exists color s color',
  rbind (background_template_html (fun s => s) (fun s => s) (Some color)) (fun t => percent (fun s => s) (fun s => s) t (AStr s)) = Raise ValueError /\
  color = lit "hsl(120,50%,50%)" /\
  rbind (background_template_html (fun s => s) (fun s => s) (Some color')) (fun t => percent (fun s => s) (fun s => s) t (AStr s)) = Ok (lit "<div style='background-color:%red'><svg/></div>") /\
  color' = lit "%%red".
Proof. exists (lit "hsl(120,50%,50%)"), (lit "<svg/>"), (lit "%%red"). vm_compute. repeat split. Qed.

(** an implementation of dot for the examples: it fails on the empty input *)
Definition ex_dot (args : list str) (input : list N) : Z * list N * list N :=
  match input with [] => (1%Z, [], lit "syntax error") | _ => (0%Z, lit "<?xml?><svg>" ++ [195; 169]%N ++ lit "</svg>", []) end.
(** With the default format, write_graphviz empties the file and raises AttributeError, although dot succeeds. *)
Theorem C114_write_refuted : exists dot w s_dot name w', dot (command (Some (lit "dot")) (lit "svg")) (lit "digraph{}") = (0%Z, lit "<svg></svg>", []) /\ utf8 s_dot (lit "digraph{}") /\
  content w name = lit "precious" /\ write_graphviz dot w s_dot (Path name) (Some (lit "dot")) (lit "svg") = (w', Raise AttributeError) /\ content w' name = [].
Proof.
  exists (fun _ _ => (0%Z, lit "<svg></svg>", [])), (mkWorld [(lit "g.svg", lit "precious")] [] []), (lit "digraph{}"), (lit "g.svg").
  eexists. split; [reflexivity|]. split; [apply decode_iff; vm_compute; reflexivity|]. split; [reflexivity|]. split; vm_compute; reflexivity.
Qed.

(** ** Examples *)
Example C116_example : py_string (lit "g" ++ [233; 8364; 128512]%N) /\ utf8 (lit "g" ++ [233; 8364; 128512]%N) (lit "g" ++ [195; 169; 226; 130; 172; 240; 159; 152; 128]%N) /\
  utf8_encode [55357]%N = Raise ValueError /\ utf8_decode [192; 128]%N = Raise ValueError /\
  dot_to_svg ex_dot (mkWorld [] [] []) (lit "digraph{}") None (lit "svg") = (mkWorld [] [] [], Ok (lit "<svg>" ++ [233]%N ++ lit "</svg>")).
Proof. split; [unfold py_string; repeat constructor; vm_compute; discriminate|]. split; [apply decode_iff; vm_compute; reflexivity|]. vm_compute. repeat split. Qed.
Example C114_example : let w := mkWorld [(lit "g", lit "old")] [] [] in
  write_graphviz ex_dot w (lit "digraph{}") (Path (lit "g")) None (lit "xdot") = (mkWorld [(lit "g", lit "<?xml?><svg>" ++ [233]%N ++ lit "</svg>" ++ [10]%N)] [] [], Ok true) /\
  write_graphviz ex_dot w (lit "digraph{}") (Opened (lit "g")) None (lit "xdot") = (mkWorld [(lit "g", lit "old<?xml?><svg>" ++ [233]%N ++ lit "</svg>" ++ [10]%N)] [] [], Ok true) /\
  write_graphviz ex_dot w [] (Path (lit "g")) None (lit "xdot") = (mkWorld [(lit "g", [])] [] [failure_message 1 (lit "syntax error") []], Raise RuntimeError).
Proof. vm_compute. repeat split. Qed.
Example C115_example : ~ with_percent (Some (lit "white")) /\
  ipynb_display_graph ex_dot (fun s => s) (fun s => s) (mkWorld [] [] []) (Ok (lit "digraph{}")) (Some (lit "white")) None =
    (mkWorld [] [lit "<div style='background-color:white'><?xml?><svg>" ++ [233]%N ++ lit "</svg></div>"] [], Ok tt).
Proof. split; [intros I; vm_compute in I; intuition discriminate|vm_compute; reflexivity]. Qed.

Print Assumptions C116_encode.
Print Assumptions C116_decode.
Print Assumptions C116_bijection.
Print Assumptions C116_run_graphviz.
Print Assumptions C116_dot_to_svg.
Print Assumptions C116_graph_to_html.
Print Assumptions C114_write.
Print Assumptions C114_svg_never.
Print Assumptions C114_write_refuted.
Print Assumptions C115_template.
Print Assumptions C115_template_refuted.
Print Assumptions C115_beside.
Print Assumptions C115_display_svg.
Print Assumptions C115_display_body.
Print Assumptions C115_ipynb_display_graph.
Print Assumptions C115_ipynb_raise.
