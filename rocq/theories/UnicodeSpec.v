(** UTF-8 (RFC 3629) and UTF-16 (RFC 2781) in plain arithmetic. *)
From Coq Require Import ZArith List Bool.
Import ListNotations.
Local Open Scope Z_scope.

Definition rfc_utf8 (c : Z) : list Z :=
  if c <? 128 then [c]
  else if c <? 2048 then [192 + c / 64; 128 + c mod 64]
  else if c <? 65536 then [224 + c / 4096; 128 + c / 64 mod 64; 128 + c mod 64]
  else [240 + c / 262144; 128 + c / 4096 mod 64; 128 + c / 64 mod 64; 128 + c mod 64].

(** Decoding of UTF-16 code units to code points. *)
Fixpoint utf16_decode (u : list Z) : option (list Z) :=
  match u with
  | [] => Some []
  | h :: r =>
      if (55296 <=? h) && (h <? 56320) then
        match r with
        | l :: r' =>
            if (56320 <=? l) && (l <? 57344)
            then option_map (cons (65536 + (h - 55296) * 1024 + (l - 56320))) (utf16_decode r')
            else None
        | [] => None
        end
      else if (56320 <=? h) && (h <? 57344) then None
      else option_map (cons h) (utf16_decode r)
  end.

(** Unicode scalar values *)
Definition scalar (c : Z) : Prop := 0 <= c < 1114112 /\ ~ (55296 <= c < 57344).

(** Membership in a table of closed ranges *)
Definition in_table (c : Z) (t : list (Z * Z)) : Prop :=
  exists a b, In (a, b) t /\ a <= c <= b.
