(** C73: _Pragma. *)
From Coq Require Import ZArith List Bool Lia.
From Verif Require Import Base LexModel PrintSpec PragmaSpec PragmaModel PragmaProofs.
Import ListNotations.
Local Open Scope Z_scope.

(** For a literal without prefix and backslash, the tokens put in place of the operator are those of the directive
    with the text the literal stands for. *)
Theorem C73_pragma : forall o body text v, ~ In 92 body -> ~ In 0 body -> destringized (34 :: body ++ [34]) text ->
  reads o (pragma_word ++ text) v -> pragma_macro o (34 :: body ++ [34]) = Ok v.
Proof. exact pragma_ok. Qed.
Print Assumptions C73_pragma.

(** The buffer is never overrun, whatever the literal is. *)
Theorem C73_bounds : forall lit, pragma_buf lit <> UB.
Proof. exact buf_bounds. Qed.
Print Assumptions C73_bounds.

(** _Pragma("once") is # pragma once. *)
Example C73_once :
  destringized [34; 111; 110; 99; 101; 34] [111; 110; 99; 101] /\
  pragma_macro (mklopt false) [34; 111; 110; 99; 101; 34]
  = Ok [(TK_PUNCT, [35], true, false); (TK_IDENT, [112; 114; 97; 103; 109; 97], false, false); (TK_IDENT, [111; 110; 99; 101], false, true)].
Proof. split; [exists [], [111; 110; 99; 101]; cbn; auto|vm_compute; reflexivity]. Qed.

(** Escapes are not undone: _Pragma("w \"-W\"") stands for #pragma w "-W", but the compiler reads #pragma w \"-W\" and
    stops at a string literal that is not closed. *)
Theorem C73_escape_refuted : exists o lit text v,
  destringized lit text /\ reads o (pragma_word ++ text) v /\ pragma_macro o lit = Abort.
Proof.
  exists (mklopt false), [34; 119; 32; 92; 34; 45; 87; 92; 34; 34], [119; 32; 34; 45; 87; 34],
    [(TK_PUNCT, [35], true, false); (TK_IDENT, [112; 114; 97; 103; 109; 97], false, false); (TK_IDENT, [119], false, true); (TK_STR E8 [45; 87], [34; 45; 87; 34], false, true)].
  split; [exists [], [119; 32; 92; 34; 45; 87; 92; 34]; cbn; auto|]. split; [|vm_compute; reflexivity].
  exists [mktok TK_PUNCT 0 1 true false; mktok TK_IDENT 1 6 false false; mktok TK_IDENT 8 1 false true; mktok (TK_STR E8 [45; 87]) 10 4 false true], (mktok TK_EOF 14 0 true false).
  split; [vm_compute; reflexivity|]. split; [reflexivity|vm_compute; reflexivity].
Qed.
Print Assumptions C73_escape_refuted.

(** A prefix is not deleted: _Pragma(L"once") stands for #pragma once, but the compiler reads the word after a quote that is not closed. *)
Theorem C73_prefix_refuted : exists o lit text v,
  destringized lit text /\ reads o (pragma_word ++ text) v /\ pragma_macro o lit = Abort.
Proof.
  exists (mklopt false), [76; 34; 111; 110; 99; 101; 34], [111; 110; 99; 101],
    [(TK_PUNCT, [35], true, false); (TK_IDENT, [112; 114; 97; 103; 109; 97], false, false); (TK_IDENT, [111; 110; 99; 101], false, true)].
  split; [exists [76], [111; 110; 99; 101]; cbn; auto|]. split; [|vm_compute; reflexivity].
  exists [mktok TK_PUNCT 0 1 true false; mktok TK_IDENT 1 6 false false; mktok TK_IDENT 8 4 false true], (mktok TK_EOF 12 0 true false).
  split; [vm_compute; reflexivity|]. split; [reflexivity|vm_compute; reflexivity].
Qed.
Print Assumptions C73_prefix_refuted.

(** A comment in the literal: the text has no newline at its end and the tokenizer reads past the buffer. *)
Theorem C73_comment_refuted : exists o lit text v,
  destringized lit text /\ ~ In 0 text /\ reads o (pragma_word ++ text ++ [10]) v /\ pragma_macro o lit = UB.
Proof.
  exists (mklopt false), [34; 47; 47; 34], [47; 47], [(TK_PUNCT, [35], true, false); (TK_IDENT, [112; 114; 97; 103; 109; 97], false, false)].
  split; [exists [], [47; 47]; cbn; auto|]. split; [cbn; lia|]. split; [|vm_compute; reflexivity].
  exists [mktok TK_PUNCT 0 1 true false; mktok TK_IDENT 1 6 false false], (mktok TK_EOF 11 0 true false).
  split; [vm_compute; reflexivity|]. split; [reflexivity|vm_compute; reflexivity].
Qed.
Print Assumptions C73_comment_refuted.
