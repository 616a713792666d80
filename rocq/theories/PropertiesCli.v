(** C71: -D defines a macro as the #define directive it stands for. *)
From Coq Require Import ZArith List Bool Lia.
From Verif Require Import Base LexModel LexSpec PrintSpec CliSpec CliModel CliProofs.
Import ListNotations.
Local Open Scope Z_scope.

(** -Dname=body gives the macro the name and the body of "#define name body", whatever the tokens of the body are, if the
    body has no newline and does not begin with an equals sign. *)
Theorem C71_define : forall o name body n v, plain_word name -> ~ In 10 body -> hd 0 body <> 61 ->
  says_define o (directive_text (name ++ 61 :: body)) n v ->
  define_macro_cli o (name ++ 61 :: body) = Ok (Some (n, v)).
Proof. exact cli_value. Qed.
Print Assumptions C71_define.

(** -Dname gives the body 1. *)
Theorem C71_name : forall o name, plain_word name ->
  says_define o (directive_text name) name [one] /\ define_macro_cli o name = Ok (Some (name, [one])).
Proof. exact cli_name. Qed.
Print Assumptions C71_name.

(** -DA1=  x=+ : the first equals sign ends the name and the second is part of the body. *)
Definition cli_body : list Z := [32; 32; 120; 61; 43].
Example C71_ex : let name := [65; 49] in
  plain_word name /\ ~ In 10 cli_body /\ hd 0 cli_body <> 61 /\
  says_define (mklopt false) (directive_text (name ++ 61 :: cli_body)) name
    [(TK_IDENT, [120], true); (TK_PUNCT, [61], false); (TK_PUNCT, [43], false)] /\
  define_macro_cli (mklopt false) (name ++ 61 :: cli_body) =
    Ok (Some (name, [(TK_IDENT, [120], true); (TK_PUNCT, [61], false); (TK_PUNCT, [43], false)])).
Proof.
  cbv zeta. split; [split; [reflexivity|exists 65, [49]; split; reflexivity]|]. split; [cbn; lia|]. split; [cbn; lia|]. split; [|vm_compute; reflexivity].
  exists (TK_IDENT, [65; 49], true, false), [(TK_IDENT, [120], false, true); (TK_PUNCT, [61], false, false); (TK_PUNCT, [43], false, false)].
  split; [|split; reflexivity].
  exists [mktok TK_IDENT 0 2 true false; mktok TK_IDENT 5 1 false true; mktok TK_PUNCT 6 1 false false; mktok TK_PUNCT 7 1 false false], (mktok TK_EOF 8 0 true false).
  split; [vm_compute; reflexivity|]. split; [reflexivity|vm_compute; reflexivity].
Qed.

(** A body that begins with an equals sign: -DA==1 stands for "#define A =1", but "==" is read as one token, so
    that no sign is found; the body is == 1 1. *)
Theorem C71_equals_refuted : exists o s n v w,
  says_define o (directive_text s) n v /\ define_macro_cli o s = Ok (Some (n, w)) /\
  v = [(TK_PUNCT, [61], true); (TK_PP_NUM, [49], false)] /\
  w = [(TK_PUNCT, [61; 61], false); (TK_PP_NUM, [49], false); one].
Proof.
  exists (mklopt false), [65; 61; 61; 49], [65], [(TK_PUNCT, [61], true); (TK_PP_NUM, [49], false)], [(TK_PUNCT, [61; 61], false); (TK_PP_NUM, [49], false); one].
  split; [|split; [vm_compute; reflexivity|split; reflexivity]].
  exists (TK_IDENT, [65], true, false), [(TK_PUNCT, [61], false, true); (TK_PP_NUM, [49], false, false)]. split; [|split; reflexivity].
  exists [mktok TK_IDENT 0 1 true false; mktok TK_PUNCT 2 1 false true; mktok TK_PP_NUM 3 1 false false], (mktok TK_EOF 4 0 true false).
  split; [vm_compute; reflexivity|]. split; [reflexivity|vm_compute; reflexivity].
Qed.
Print Assumptions C71_equals_refuted.

(** The text of the option is tokenized without a newline at its end: for -DA=// , which stands for "#define A //" with an
    empty body, the tokenizer reads past the end of the argument. *)
Theorem C71_comment_refuted : exists o s, ~ In 0 s /\ ~ In 10 s /\
  says_define o (directive_text s ++ [10]) [65] [] /\ define_macro_cli o s = UB.
Proof.
  exists (mklopt false), [65; 61; 47; 47]. split; [cbn; lia|]. split; [cbn; lia|]. split; [|vm_compute; reflexivity].
  exists (TK_IDENT, [65], true, false), []. split; [|split; reflexivity].
  exists [mktok TK_IDENT 0 1 true false], (mktok TK_EOF 5 0 true false). split; [vm_compute; reflexivity|]. split; [reflexivity|vm_compute; reflexivity].
Qed.
Print Assumptions C71_comment_refuted.
