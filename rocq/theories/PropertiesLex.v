(** C06-C09 and C51: lines, tokens and integer constants. *)
From Coq Require Import Ascii String ZArith List Bool Lia.
From Verif Require Import Base IntSpec IntModel UnicodeTables UnicodeSpec LexSpec LexModel LexLines LexSafe LexProofs LexTok.
From Verif Require Import NumSpec NumModel NumProofs.
Import ListNotations.
Local Open Scope Z_scope.

Definition opt0 : lopt := mklopt false.
(** Decides [~ In 0 l] and [bytes l] for a given list. *)
Lemma no0_dec l : forallb (fun c => negb (c =? 0)) l = true -> ~ In 0 l.
Proof. intros H X. rewrite forallb_forall in H. specialize (H 0 X). discriminate. Qed.
Lemma bytes_dec l : forallb (fun c => (0 <=? c) && (c <? 256)) l = true -> bytes l.
Proof. intros H. apply Forall_forall. intros x X. rewrite forallb_forall in H. specialize (H x X). lia. Qed.

(** C06. The newline and splicing passes give the logical lines of the text; the newlines
    removed from inside a logical line follow it. *)
Theorem C06_splicing :
  forall s, ~ In 0 s ->
  remove_backslash_newline (canonicalize_newline (s ++ [0])) = logical_text 0 (phys_lines s) ++ [0].
Proof. exact phases_text. Qed.
Print Assumptions C06_splicing.

(** C06. Counting newlines in the result gives, for every remaining character, the physical
    line on which its logical line begins. *)
Theorem C06_line_numbers :
  forall s, ~ In 0 s ->
  numbered 1 (removelast (remove_backslash_newline (canonicalize_newline (s ++ [0])))) = origins 1 1 (phys_lines s).
Proof. exact lines_kept. Qed.
Print Assumptions C06_line_numbers.

(** C06. Every token gets the number of the line it begins on. *)
Theorem C06_token_lines :
  forall o b l, ~ In 0 b -> bytes b -> tokenize o (b ++ [0]) = Ok l ->
  add_line_numbers (b ++ [0]) 0 1 (map loc l) = map (fun t => line_at b (loc t)) l.
Proof. exact token_lines. Qed.
Print Assumptions C06_token_lines.

(** a, carriage return, line feed, "b\", line feed, "c\", carriage return, "d", line feed, "e":
    b, c, d are on line 2 and e is on line 5. *)
Definition ex_lines : list Z := [97; 13; 10; 98; 92; 10; 99; 92; 13; 100; 10; 101; 10].
Example C06_ex :
  ~ In 0 ex_lines /\
  remove_backslash_newline (canonicalize_newline (ex_lines ++ [0])) = [97; 10; 98; 99; 100; 10; 10; 10; 101; 10; 0] /\
  origins 1 1 (phys_lines ex_lines) = [(97, 1); (98, 2); (99, 2); (100, 2); (101, 5)] /\
  exists l, tokenize opt0 [97; 10; 98; 99; 100; 10; 10; 10; 101; 10; 0] = Ok l /\
    add_line_numbers [97; 10; 98; 99; 100; 10; 10; 10; 101; 10; 0] 0 1 (map loc l) = [1; 2; 5; 6].
Proof.
  split; [apply no0_dec; reflexivity|]. split; [reflexivity|]. split; [reflexivity|].
  eexists. split; vm_compute; reflexivity.
Qed.

(** C06 with the line a character itself is on is false: "a\", line feed, "b" reports b on
    line 1. *)
Theorem C06_own_line_refuted :
  exists s, ~ In 0 s /\
  numbered 1 (removelast (remove_backslash_newline (canonicalize_newline (s ++ [0])))) <> own_lines 1 (phys_lines s).
Proof. exists [97; 92; 10; 98; 10]. split; [apply no0_dec; reflexivity|]. vm_compute. discriminate. Qed.
Print Assumptions C06_own_line_refuted.

(** C07. On a text that ends in a newline no function of the tokenizer reads past the
    terminator, overruns a literal's buffer or loops. *)
Theorem C07_tokenizer_in_bounds :
  forall o b, ~ In 0 b -> b = [] \/ last b 0 = 10 -> tokenize o (b ++ [0]) <> UB.
Proof. exact tokenize_in_bounds. Qed.
Print Assumptions C07_tokenizer_in_bounds.

(** C07 for a source file whose last line is terminated and does not end in a backslash. *)
Theorem C07_file_in_bounds :
  forall o s ls l, ~ In 0 s -> phys_lines s = ls ++ [l; []] -> ends_bs l = false ->
  tokenize o (remove_backslash_newline (canonicalize_newline (s ++ [0]))) <> UB.
Proof. exact file_in_bounds. Qed.
Print Assumptions C07_file_in_bounds.

Definition ex_text : list Z := bytes_of "x=L""a\x41"" /* */+1.e-5 'u'//" ++ [10].
Example C07_ex :
  ~ In 0 ex_text /\ last ex_text 0 = 10 /\
  phys_lines ex_text = [] ++ [bytes_of "x=L""a\x41"" /* */+1.e-5 'u'//"; []] /\
  exists l, tokenize opt0 (ex_text ++ [0]) = Ok l /\ length l = 7%nat.
Proof.
  split; [apply no0_dec; reflexivity|]. split; [reflexivity|]. split; [reflexivity|].
  eexists. split; [vm_compute; reflexivity|reflexivity].
Qed.

(** C07 is false for arbitrary files: a last line comment continued by a backslash leaves no
    newline, and the comment loop runs over the terminator. *)
Theorem C07_any_file_refuted :
  exists s, ~ In 0 s /\
  tokenize opt0 (remove_backslash_newline (canonicalize_newline (s ++ [0]))) = UB.
Proof. exists [47; 47; 92; 10]. split; [apply no0_dec; reflexivity|]. vm_compute. reflexivity. Qed.
Print Assumptions C07_any_file_refuted.

(** C07 is false for texts without a final newline, as the preprocessor makes them for the
    ## operator and for -D: a comment opener, and a backslash at the end of a string or
    character constant. *)
Theorem C07_pasted_text_refuted :
  tokenize opt0 (bytes_of "//" ++ [0]) = UB /\
  tokenize opt0 (bytes_of """a\" ++ [0]) = UB /\
  tokenize opt0 (bytes_of "'\" ++ [0]) = UB.
Proof. repeat split; vm_compute; reflexivity. Qed.
Print Assumptions C07_pasted_text_refuted.

(** C07 is false for the empty file: the check for a byte order mark reads three bytes of a
    buffer of two. *)
Theorem C07_empty_file_refuted : prepare false [] = UB.
Proof. reflexivity. Qed.
Print Assumptions C07_empty_file_refuted.

(** C08. An integer constant within the types ISO C lists for its form has the first of them
    that can represent it, and its value; [val] is the number as the int64_t kept in the
    token. *)
Theorem C08_integer_constant :
  forall w base pre ds suf u l t,
  (length w <= 226)%nat -> no_sep w = pre ++ ds ++ suf ->
  numeral base pre ds -> suffix suf u l ->
  const_type (base =? 10) u l (value_of base ds) = Some t ->
  exists val, convert_pp_number w = Ok (Some (mty t, val)) /\
    in_range TLong val /\ conv t val = value_of base ds.
Proof. exact number_ok. Qed.
Print Assumptions C08_integer_constant.

(** C08. Nothing else is taken as an integer constant. *)
Theorem C08_only_constants :
  forall w t val,
  bytes w -> ~ In 0 w -> starts_number w -> ~ double_prefix (no_sep w) ->
  convert_pp_number w = Ok (Some (t, val)) ->
  exists base pre ds suf u l, no_sep w = pre ++ ds ++ suf /\ numeral base pre ds /\ suffix suf u l.
Proof. exact number_only. Qed.
Print Assumptions C08_only_constants.

(** C08. The conversion stays inside its buffer for every spelling. *)
Theorem C08_conversion_in_bounds : forall w, bytes w -> convert_pp_number w <> UB.
Proof. exact convert_safe. Qed.
Print Assumptions C08_conversion_in_bounds.

(** 0xFFFF'FFFFu, 2147483648 and 0x8000000000000000. *)
Example C08_ex1 :
  no_sep (bytes_of "0xFFFF'FFFFu") = [48; 120] ++ bytes_of "FFFFFFFF" ++ [117] /\
  numeral 16 [48; 120] (bytes_of "FFFFFFFF") /\ suffix [117] true 0 /\
  const_type (16 =? 10) true 0 (value_of 16 (bytes_of "FFFFFFFF")) = Some TUInt /\
  convert_pp_number (bytes_of "0xFFFF'FFFFu") = Ok (Some (ty_uint, 4294967295)).
Proof.
  split; [reflexivity|]. split; [apply num_hex; [left; reflexivity|reflexivity]|].
  split; [apply suf_u; left; reflexivity|]. split; vm_compute; reflexivity.
Qed.
Example C08_ex2 :
  numeral 10 [] (bytes_of "2147483648") /\ suffix [] false 0 /\
  const_type (10 =? 10) false 0 (value_of 10 (bytes_of "2147483648")) = Some TLong /\
  convert_pp_number (bytes_of "2147483648") = Ok (Some (ty_long, 2147483648)) /\
  convert_pp_number (bytes_of "0x8000000000000000") = Ok (Some (ty_ulong, -9223372036854775808)).
Proof.
  split; [apply num_dec; [reflexivity|discriminate|reflexivity]|]. split; [constructor|]. repeat split; vm_compute; reflexivity.
Qed.

(** C08 extended to all numerals is false. A decimal constant that fits no signed type should
    be rejected (or be unsigned); it becomes a negative long. A constant beyond 64 bits becomes
    -1. A doubled prefix is accepted. *)
Theorem C08_too_large_refuted :
  const_type true false 0 (value_of 10 (bytes_of "9223372036854775808")) = None /\
  convert_pp_number (bytes_of "9223372036854775808") = Ok (Some (ty_long, -9223372036854775808)) /\
  const_type false true 0 (value_of 16 (bytes_of "10000000000000000")) = None /\
  convert_pp_number (bytes_of "0x10000000000000000u") = Ok (Some (ty_ulong, -1)).
Proof. repeat split; vm_compute; reflexivity. Qed.
Print Assumptions C08_too_large_refuted.
Theorem C08_doubled_prefix_refuted :
  exists w, starts_number w /\ convert_pp_number w = Ok (Some (ty_int, 18)) /\
  ~ exists base pre ds suf u l, no_sep w = pre ++ ds ++ suf /\ numeral base pre ds /\ suffix suf u l.
Proof. exact double_prefix_bad. Qed.
Print Assumptions C08_doubled_prefix_refuted.

(** C09. A punctuator is the longest one that starts the text. *)
Theorem C09_punctuators :
  forall o p n, (2 <= length p)%nat -> read_punct o p = Ok n ->
  let l := puncts ++ stray ++ (if asm_pp o then [[36]] else []) in
  (n = 0%nat -> no_match l p) /\ ((0 < n)%nat -> longest_match l p n).
Proof. exact punct_maximal. Qed.
Print Assumptions C09_punctuators.

Example C09_ex :
  read_punct opt0 (bytes_of "<<=1") = Ok 3%nat /\ read_punct opt0 (bytes_of "..x") = Ok 1%nat /\
  read_punct opt0 (bytes_of "->*") = Ok 2%nat /\ read_punct opt0 (bytes_of "a+") = Ok 0%nat.
Proof. repeat split; reflexivity. Qed.

(** C09 with the digraphs of ISO C is false. *)
Theorem C09_digraphs_refuted :
  exists p n, read_punct opt0 p = Ok n /\ ~ longest_match (puncts ++ digraphs) p n.
Proof.
  exists (bytes_of "<:1"), 1%nat. split; [reflexivity|]. intros [_ H].
  specialize (H (bytes_of "<:")). cbn [length] in H. specialize (H ltac:(vm_compute; tauto) eq_refl). vm_compute in H. lia.
Qed.
Print Assumptions C09_digraphs_refuted.

(** C51. Every accepted text is divided into white space and tokens as the grammar says, with
    the kind, the value, the place and the white-space flags of each token. *)
Theorem C51_tokens_follow_grammar :
  forall o b l, ~ In 0 b -> bytes (b ++ [0]) ->
  tokenize o (b ++ [0]) = Ok l ->
  tokens (asm_pp o) 0 true false (b ++ [0]) (map view l).
Proof. exact tokenize_tokens. Qed.
Print Assumptions C51_tokens_follow_grammar.

Example C51_ex :
  let b := bytes_of "  a.b+=.5e+x'\n'/**/u""\x41b"";" ++ [10] in
  ~ In 0 b /\ bytes (b ++ [0]) /\
  exists l, tokenize opt0 (b ++ [0]) = Ok l /\
  map view l =
    [(LName, 2, 1, true, true); (LPunct, 3, 1, false, false); (LName, 4, 1, false, false);
     (LPunct, 5, 2, false, false); (LNumber, 7, 5, false, false); (LChar CInt 10%Z, 12, 4, false, false);
     (LString S16 [1051%Z], 20, 8, false, true); (LPunct, 28, 1, false, false);
     (LEnd, 30, 0, true, false)]%nat.
Proof.
  cbv zeta. split; [apply no0_dec; reflexivity|]. split; [apply bytes_dec; reflexivity|].
  eexists. split; vm_compute; reflexivity.
Qed.
