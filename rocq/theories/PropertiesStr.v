(** C13: the operator #, quoted names; C14: concatenation of string literals. *)
From Coq Require Import Ascii String ZArith List Bool Lia.
From Verif Require Import Base IntSpec IntModel LexSpec LexModel LexProofs PpSpec MacSpec MacModel MacStr StrSpec StrModel StrProofs.
Import ListNotations.
Local Open Scope string_scope.
Local Open Scope list_scope.
Local Open Scope Z_scope.

(** *** C13: the text # makes is one string literal, and the bytes it denotes are the spelling of
    the operand: backslashes and quotes inside literals survive. *)
Theorem C13_stringize :
  forall o h l, Forall quotable (filter (fun t => negb (is_pmark t)) l) ->
  exists n, tokenize o (bytes_of (mtext (stringize h l)) ++ [0]) =
    Ok [mktok (TK_STR E8 (spelling (map piece (filter (fun t => negb (is_pmark t)) l)))) 0 n true false; mktok TK_EOF n 0 true false].
Proof. exact stringize_lexes. Qed.
Print Assumptions C13_stringize.
(** *** C13: names made into string literals (__FILE__, -D text) denote themselves *)
Theorem C13_quoted_name :
  forall o s, ~ In 0 (bytes_of s) -> ~ In 10 (bytes_of s) -> ~ In 34 (bytes_of s) -> ~ In 92 (bytes_of s) ->
  exists n, tokenize o (bytes_of (quote_string s) ++ [0]) = Ok [mktok (TK_STR E8 (bytes_of s)) 0 n true false; mktok TK_EOF n 0 true false].
Proof. exact quote_lexes. Qed.
Print Assumptions C13_quoted_name.
(** *** C13 is false for names with a backslash: for a file a\b, __FILE__ is two bytes, a and a
    backspace; with a quote the text is not one literal. *)
Theorem C13_file_refuted :
  exists s t, (forall c, In c (bytes_of s ++ bytes_of t) -> 32 <= c < 127) /\
    forall o, tokenize o (bytes_of (quote_string s) ++ [0]) = Ok [mktok (TK_STR E8 [97; 8]) 0 5 true false; mktok TK_EOF 5 0 true false] /\
    bytes_of s = [97; 92; 98] /\ tokenize o (bytes_of (quote_string t) ++ [0]) = Abort.
Proof.
  exists "a\b", """"%string. split.
  - intros c H. cbn in H. repeat (destruct H as [<-|H]; [lia|]). destruct H.
  - intros [b]. destruct b; vm_compute; auto.
Qed.
Print Assumptions C13_file_refuted.
(** # applied to  "a\n" + 'b' , to nothing, and to a stray backslash (undefined in ISO C). *)
Definition ex_operand : list mtok := [mkmtok KLit """a\n""" true false; mkmtok KOther "+" true false; mkmtok KLit "'\''" true false; mkmtok KId "x" false false].
Example ex_stringize :
  Forall quotable ex_operand /\ mtext (stringize (mkmtok KOther "#" false false) ex_operand) = """\""a\\n\"" + '\\''x""" /\
  tokenize (mklopt false) (bytes_of (mtext (stringize (mkmtok KOther "#" false false) ex_operand)) ++ [0]) =
    Ok [mktok (TK_STR E8 (bytes_of """a\n"" + '\''x")) 0 19 true false; mktok TK_EOF 19 0 true false] /\
  tokenize (mklopt false) (bytes_of (mtext (stringize (mkmtok KOther "#" false false) [])) ++ [0]) = Ok [mktok (TK_STR E8 []) 0 2 true false; mktok TK_EOF 2 0 true false] /\
  tokenize (mklopt false) (bytes_of (mtext (stringize (mkmtok KOther "#" false false) [mkmtok KOther "\" false false])) ++ [0]) = Abort.
Proof.
  split; [|vm_compute; auto]. repeat constructor; cbn; try discriminate; intuition discriminate.
Qed.

(** *** C14: adjacent string literals become one array of the common element type, holding the
    elements of all of them and one terminator; different prefixes are an error. Literals u8 and
    u together are excluded. *)
Theorem C14_concat :
  forall bs t l, Forall (fun b => bytes b /\ ~ In 0 b) bs -> Forall2 (fun b t => read_lit (b ++ [0]) = Ok t) bs (t :: l) ->
  exists ds, grammatical bs ds /\ (no_mix (map fst ds) ->
    match common_prefix (map fst ds) with
    | None => join_literals t l = Abort
    | Some m =>
        join_literals t l <> UB /\
        (forall ty buf, join_literals t l = Ok (ty, buf) -> ty = mty (prefix_type m) /\
           exists uss, Forall2 (elements (prefix_enc m)) (map snd ds) uss /\ buf = flat_map (le (ebytes m)) (concat uss ++ [0])) /\
        (ebytes m = 1%nat \/ Forall ascii_body (map snd ds) -> exists r, join_literals t l = Ok r)
    end).
Proof. exact concat_ok. Qed.
Print Assumptions C14_concat.
(** *** C14 is false for u8"a" u"b": the kinds are taken to be equal, and the elements of the
    second literal are copied beyond the end of the buffer. *)
Theorem C14_u8_u16_refuted :
  exists t1 t2, read_lit (bytes_of "u8""a"" u""b"";" ++ [0]) = Ok t1 /\ read_lit (bytes_of "u""b"";" ++ [0]) = Ok t2 /\
    common_prefix [PU8; PU16] = None /\ join_literals t1 [t2] = UB.
Proof. do 2 eexists. split; [vm_compute; reflexivity|]. split; [vm_compute; reflexivity|]. split; [reflexivity|vm_compute; reflexivity]. Qed.
Print Assumptions C14_u8_u16_refuted.
(** *** C14 is false for u"b" u8"a": the second literal is read again from the byte after the u,
    up to the quote that opens it, and the result is u"b8". *)
Theorem C14_u16_u8_refuted :
  exists t1 t2, read_lit (bytes_of "u""b"" u8""a"";" ++ [0]) = Ok t1 /\ read_lit (bytes_of "u8""a"";" ++ [0]) = Ok t2 /\
    common_prefix [PU16; PU8] = None /\ join_literals t1 [t2] = Ok (mty TUShort, [98; 0; 56; 0; 0; 0]).
Proof.
  do 2 eexists. split; [vm_compute; reflexivity|]. split; [vm_compute; reflexivity|]. split; [reflexivity|]. vm_compute. reflexivity.
Qed.
Print Assumptions C14_u16_u8_refuted.
(** "a" L"\xff" "b": the plain ones are read again as wide; u"x" U"y" is refused. *)
Definition ex_texts : list (list Z) := map bytes_of ["""a"" "; "L""\xff"" "; """b"";"].
Example ex_concat :
  exists t1 t2 t3, Forall2 (fun b t => read_lit (b ++ [0]) = Ok t) ex_texts [t1; t2; t3] /\
    Forall (fun b => bytes b /\ ~ In 0 b) ex_texts /\ grammatical ex_texts [(PNone, [97]); (PWide, [92; 120; 102; 102]); (PNone, [98])] /\
    join_literals t1 [t2; t3] = Ok (mty TInt, [97; 0; 0; 0; 255; 0; 0; 0; 98; 0; 0; 0; 0; 0; 0; 0]).
Proof.
  do 3 eexists. split; [repeat constructor; vm_compute; reflexivity|]. split.
  { repeat constructor; try (cbn; intuition discriminate); cbn; lia. }
  split; [|vm_compute; reflexivity]. repeat constructor; cbn [fst snd].
  - eexists. reflexivity.
  - exists ([97] ++ []). change [97] with (97 :: [] ++ []) at 1. apply el_plain; try lia; [eexists; split; reflexivity|constructor].
  - eexists. reflexivity.
  - eexists. apply el_escape with (v := value_of 16 [102; 102]) (r := []); [|constructor]. apply (esc_hex [102; 102] []); [reflexivity|discriminate|exact Logic.I].
  - eexists. reflexivity.
  - exists ([98] ++ []). change [98] with (98 :: [] ++ []) at 1. apply el_plain; try lia; [eexists; split; reflexivity|constructor].
Qed.
Example ex_refused :
  exists t1 t2, read_lit (bytes_of "u""x"" U""y"";" ++ [0]) = Ok t1 /\ read_lit (bytes_of "U""y"";" ++ [0]) = Ok t2 /\ join_literals t1 [t2] = Abort.
Proof. do 2 eexists. repeat split; vm_compute; reflexivity. Qed.
