(** C04, C05, C47: Unicode handling. *)
From Coq Require Import ZArith List Lia.
From Verif Require Import Base UnicodeTables UnicodeModel UnicodeSpec UnicodeProofs.
Import ListNotations.
Local Open Scope Z_scope.

(** C04. Encoding is UTF-8, and decoding inverts it whatever bytes follow. *)
Theorem C04_encode_is_utf8 : forall c, 0 <= c < 2097152 -> encode_utf8 c = rfc_utf8 c.
Proof. exact encode_rfc. Qed.
Print Assumptions C04_encode_is_utf8.

Theorem C04_utf8_roundtrip : forall c rest, 0 <= c < 2097152 ->
  decode_utf8 (encode_utf8 c ++ rest) = Ok (c, length (encode_utf8 c)).
Proof. exact decode_encode. Qed.
Print Assumptions C04_utf8_roundtrip.

Example C04_ex : 0 <= 128512 < 2097152 /\ encode_utf8 128512 = [240; 159; 152; 128] /\
  decode_utf8 [240; 159; 152; 128; 65] = Ok (128512, 4%nat).
Proof. split; [lia|]. split; reflexivity. Qed.

Theorem C04_utf8_all_code_points_refuted : exists c, 0 <= c < two32 /\
  decode_utf8 (encode_utf8 c) <> Ok (c, length (encode_utf8 c)).
Proof. exact encode_big_refuted. Qed.
Print Assumptions C04_utf8_all_code_points_refuted.

(** Decoding at a byte before the terminator never reads behind the terminator and
    consumes between one byte and all bytes before it. *)
Theorem C04_decode_stays_in_buffer : forall p q, p <> [] ->
  decode_utf8 (p ++ 0 :: q) <> UB /\
  forall c n, decode_utf8 (p ++ 0 :: q) = Ok (c, n) -> (1 <= n <= length p)%nat.
Proof. exact decode_nul. Qed.
Print Assumptions C04_decode_stays_in_buffer.

Example C04_ex2 : decode_utf8 ([226; 130] ++ 0 :: [172]) = Abort.
Proof. reflexivity. Qed.

(** C05. The elements of a u"..." literal decode, as UTF-16, to the code points of the
    source; U"..." and L"..." literals are these code points. *)
Theorem C05_utf16_literal : forall cs, Forall scalar cs ->
  exists u, read_utf16_body (flat_map rfc_utf8 cs) = Ok u /\ utf16_decode u = Some cs /\
            Forall (fun x => 0 <= x < 65536) u.
Proof. exact utf16_literal. Qed.
Print Assumptions C05_utf16_literal.

Theorem C05_utf32_literal : forall cs, Forall scalar cs ->
  read_utf32_body (flat_map rfc_utf8 cs) = Ok cs.
Proof. exact utf32_literal. Qed.
Print Assumptions C05_utf32_literal.

Example C05_ex : Forall scalar [65; 8364; 128512] /\
  read_utf16_body (flat_map rfc_utf8 [65; 8364; 128512]) = Ok [65; 8364; 55357; 56832].
Proof. split; [repeat constructor; lia|reflexivity]. Qed.

(** C47. Table searches decide membership. *)
Theorem C47_ident_start : forall c, is_ident1 c = true <-> in_table c ident1_table.
Proof. exact is_ident1_ok. Qed.
Print Assumptions C47_ident_start.

Theorem C47_ident_continue : forall c,
  is_ident2 c = true <-> in_table c ident1_table \/ in_table c ident2_table.
Proof. exact is_ident2_ok. Qed.
Print Assumptions C47_ident_continue.

Theorem C47_char_width : forall c,
  (in_table c width0_table -> char_width c = 0) /\
  (~ in_table c width0_table -> in_table c width2_table -> char_width c = 2) /\
  (~ in_table c width0_table -> ~ in_table c width2_table -> char_width c = 1).
Proof. exact char_width_ok. Qed.
Print Assumptions C47_char_width.

Example C47_ex : in_table 955 ident1_table /\ is_ident1 955 = true /\ is_ident2 768 = true /\
  is_ident1 768 = false /\ char_width 12354 = 2.
Proof. split; [apply is_ident1_ok; vm_compute; reflexivity|]. repeat split; vm_compute; reflexivity. Qed.
