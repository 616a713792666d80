(** C63: what -E writes is read as the tokens it was written for. *)
From Coq Require Import Ascii String ZArith List Bool Lia.
From Verif Require Import Base MacModel LexSpec LexModel PrintModel PrintSpec PrintProofs.
Import ListNotations.
Local Open Scope string_scope.
Local Open Scope Z_scope.
Local Open Scope list_scope.

(** C63. The tokens of any text, written with -P, are read back with their kinds, values and
    spellings, and with the same white space except for indentation. *)
Theorem C63_same_tokens :
  forall o b fid name ln toks e, tokenize o (b ++ [0]) = Ok (toks ++ [e]) ->
  reads o (print_tokens true (map (of_source (b ++ [0]) fid name ln) toks))
    (map (fun t => (LexModel.kind t, spelling (b ++ [0]) t, at_bol t, has_space t && negb (at_bol t))) toks).
Proof. exact same_tokens. Qed.
Print Assumptions C63_same_tokens.

(** C63. The same with and without -P; without, one marker precedes the tokens. *)
Theorem C63_source_tokens :
  forall o P b fid name ln toks e, tokenize o (b ++ [0]) = Ok (toks ++ [e]) ->
  (P = false -> forall t, In t toks -> plain_name name /\ 0 <= ln t < 2147483648) ->
  exists v, reads o (print_tokens P (map (of_source (b ++ [0]) fid name ln) toks)) v /\
    shown P true None (map (of_source (b ++ [0]) fid name ln) toks) v.
Proof. exact source_reread. Qed.
Print Assumptions C63_source_tokens.

(** C63. Tokens from any number of files and macros are read back, with a marker wherever the
    file changes, if every run of tokens written without white space between them is read as
    these tokens when it stands alone. *)
Theorem C63_any_tokens :
  forall o P l, (forall g, In g (runs P l) -> run_reads o g) -> (P = false -> Forall placed l) ->
  exists v, reads o (print_tokens P l) v /\ shown P true None l v.
Proof. exact print_reread. Qed.
Print Assumptions C63_any_tokens.

(** C63. The phases before the tokenizer leave the output of -E as it is, if no backslash is
    written before a newline and it does not begin with a byte order mark. *)
Theorem C63_phases :
  forall P l, let out := print_tokens P l in
  l <> [] -> (forall t, In t l -> ptext t <> [] /\ ~ In 0 (ptext t) /\ ~ In 13 (ptext t) /\
    (P = false -> ~ In 0 (pname t) /\ ~ In 13 (pname t) /\ 0 <= pline t < 2147483648)) ->
  firstn 3 out <> [239; 187; 191] -> (forall u w, out <> u ++ 92 :: 10 :: w) ->
  prepare false out = Ok (out ++ [0]).
Proof. exact file_phases. Qed.
Print Assumptions C63_phases.

(** *** Examples *)
Definition po : lopt := mklopt false.
(** Indentation, comments, a number next to dots, a string with an escape, and a word after a comment. *)
Definition ex_src : list Z := bytes_of "  a/**/b=.5e+x..c;" ++ [10; 10] ++ bytes_of "	L""\x41 b""-- -// end" ++ [10].
Example C63_ex_same :
  exists toks e, tokenize po (ex_src ++ [0]) = Ok (toks ++ [e]) /\ length toks = 8%nat /\
  print_tokens true (map (of_source (ex_src ++ [0]) 0 [] (fun _ => 1)) toks) =
    bytes_of "a b=.5e+x..c;" ++ [10] ++ bytes_of "L""\x41 b""-- -" ++ [10] /\
  print_tokens false (map (of_source (ex_src ++ [0]) 0 (bytes_of "-") (fun _ => 12)) (firstn 2 toks)) =
    [10] ++ bytes_of "# 12 ""<stdin>""" ++ [10] ++ bytes_of "a b" ++ [10] /\
  plain_name (bytes_of "-").
Proof.
  exists (removelast ltac:(let x := eval vm_compute in (match tokenize po (ex_src ++ [0]) with Ok l => l | _ => [] end) in exact x)), (mktok TK_EOF 41 0 true false).
  split; [vm_compute; reflexivity|]. split; [vm_compute; reflexivity|]. split; [vm_compute; reflexivity|]. split; [vm_compute; reflexivity|].
  unfold plain_name. cbn. repeat split; lia.
Qed.

(** a of f.c; b, c and + of h.h without space before +; d of f.c again. *)
Definition pt (s : string) (k : tkind) (bol spc : bool) (f : nat) (n : Z) : ptok :=
  mkptok k (bytes_of s) bol spc f (bytes_of (match f with O => "f.c" | _ => "h.h" end)) n.
Definition ex_files : list ptok :=
  [pt "a" TK_IDENT true false 0 1; pt "b" TK_IDENT true true 1 7; pt "c" TK_IDENT false true 1 7; pt "+" TK_PUNCT false false 1 7; pt "d" TK_IDENT true false 0 3].
Example C63_ex_files :
  (forall g, In g (runs false ex_files) -> run_reads po g) /\ Forall placed ex_files /\
  runs false ex_files = [[pt "a" TK_IDENT true false 0 1]; [pt "b" TK_IDENT true true 1 7];
    [pt "c" TK_IDENT false true 1 7; pt "+" TK_PUNCT false false 1 7]; [pt "d" TK_IDENT true false 0 3]] /\
  print_tokens false ex_files = [10] ++ bytes_of "# 1 ""f.c""" ++ [10] ++ bytes_of "a" ++ [10] ++ bytes_of "# 7 ""h.h""" ++ [10; 10] ++
    bytes_of "b c+" ++ [10] ++ bytes_of "# 3 ""f.c""" ++ [10; 10] ++ bytes_of "d" ++ [10] /\
  prepare false (print_tokens false ex_files) = Ok (print_tokens false ex_files ++ [0]).
Proof.
  split; [|split; [|split; [reflexivity|split; vm_compute; reflexivity]]].
  - intros g I. unfold ex_files in I.
    assert (R : forall g l e, tokenize po (concat (map ptext g) ++ [10; 0]) = Ok (l ++ [e]) -> LexModel.kind e = TK_EOF -> map LexModel.kind l = map pkind g ->
      map loc l = starts 0 g -> map tlen l = map (fun t => List.length (ptext t)) g -> run_reads po g) by (intros g0 l e; intros; exists l, e; auto).
    repeat (destruct I as [<-|I]; [|]); [| | | |destruct I].
    + apply (R _ [mktok TK_IDENT 0 1 true false] (mktok TK_EOF 2 0 true false)); vm_compute; reflexivity.
    + apply (R _ [mktok TK_IDENT 0 1 true false] (mktok TK_EOF 2 0 true false)); vm_compute; reflexivity.
    + apply (R _ [mktok TK_IDENT 0 1 true false; mktok TK_PUNCT 1 1 false false] (mktok TK_EOF 3 0 true false)); vm_compute; reflexivity.
    + apply (R _ [mktok TK_IDENT 0 1 true false] (mktok TK_EOF 2 0 true false)); vm_compute; reflexivity.
  - repeat constructor; cbn; lia.
Qed.

(** *** C63 is false for the result of macro expansion: with
      #define M -
    -M expands to two minus signs, the second one without white space as M had none, and
    they are written as one token. *)
Definition of_mtok (t : mtok) : ptok := mkptok TK_PUNCT (bytes_of (mtext t)) false (sp t) 0 [] 1.
Theorem C63_macro_refuted :
  exists l, (forall pst strict, expand pst strict [("M", mkmac true [] false [mkmtok KOther "-" false false])] 10 [] []
      [mkmtok KOther "-" true false; mkmtok KId "M" false false] = Ok l) /\ map mtext l = ["-"; "-"] /\
    reads po (print_tokens true (map of_mtok l)) [(TK_PUNCT, bytes_of "--", true, true)].
Proof.
  eexists. split; [intros; vm_compute; reflexivity|]. split; [reflexivity|].
  exists [mktok TK_PUNCT 1 2 true true], (mktok TK_EOF 4 0 true false). repeat split; vm_compute; reflexivity.
Qed.
Print Assumptions C63_macro_refuted.

(** *** C63 is false for a file with a stray backslash before white space at the end of a line:
    -E drops the white space, and the next line is then spliced. Three tokens become one. *)
Theorem C63_backslash_refuted :
  exists b toks e, prepare false b = Ok (b ++ [0]) /\ tokenize po (b ++ [0]) = Ok (toks ++ [e]) /\ length toks = 3%nat /\
  exists p t e', prepare false (print_tokens true (map (of_source (b ++ [0]) 0 [] (fun _ => 1)) toks)) = Ok p /\ tokenize po p = Ok ([t] ++ [e']).
Proof.
  exists ([97; 92; 32; 10; 98; 10]), [mktok TK_IDENT 0 1 true false; mktok TK_PUNCT 1 1 false false; mktok TK_IDENT 4 1 true false], (mktok TK_EOF 6 0 true false).
  split; [vm_compute; reflexivity|]. split; [vm_compute; reflexivity|]. split; [reflexivity|].
  exists [97; 98; 10; 10; 0], (mktok TK_IDENT 0 2 true false), (mktok TK_EOF 4 0 true false). split; vm_compute; reflexivity.
Qed.
Print Assumptions C63_backslash_refuted.

(** *** Lines are not kept: markers are only written where the file changes. In the output x and y,
    lines 1 and 4 of the file, are on adjacent lines. *)
Theorem C63_lines_refuted :
  exists b toks e, tokenize po (b ++ [0]) = Ok (toks ++ [e]) /\ add_line_numbers (b ++ [0]) 0 1 (map loc toks) = [1; 4] /\
  let out := print_tokens false (map (of_source (b ++ [0]) 0 (bytes_of "f.c") (fun t => line_at b (loc t))) toks) in
  out = [10] ++ bytes_of "# 1 ""f.c""" ++ [10] ++ bytes_of "x" ++ [10] ++ bytes_of "y" ++ [10].
Proof.
  exists ([120; 10; 10; 10; 121; 10]), [mktok TK_IDENT 0 1 true false; mktok TK_IDENT 4 1 true false], (mktok TK_EOF 6 0 true false).
  repeat split; vm_compute; reflexivity.
Qed.
Print Assumptions C63_lines_refuted.

(** *** Names of files are not quoted: the marker for a name with a quote cannot be read. *)
Theorem C63_name_refuted :
  exists l, run_reads po l /\ runs false l = [l] /\ tokenize po (print_tokens false l ++ [0]) = Abort.
Proof.
  exists [mkptok TK_IDENT [97] true false 0 (bytes_of "a""b") 1]. split; [|split; [reflexivity|vm_compute; reflexivity]].
  exists [mktok TK_IDENT 0 1 true false], (mktok TK_EOF 2 0 true false). repeat split; vm_compute; reflexivity.
Qed.
Print Assumptions C63_name_refuted.
