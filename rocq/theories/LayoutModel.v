(** Model of struct_decl and union_decl (parse.c). Type.size is an int64_t; everything else here is
    an int, so values pass through [int_conv] where C converts. *)
From Coq Require Import ZArith List Bool.
From Verif Require Import Base FrameModel LayoutSpec.
Import ListNotations.
Local Open Scope Z_scope.

(** align_down, parse.c:186-188. *)
Definition align_down (n a : Z) : outcome Z :=
  do x <- int_of (n - a); do y <- int_of (x + 1); align_to y a.
(** Division of ints. *)
Definition int_div (n d : Z) : outcome Z := if d =? 0 then UB else int_of (Z.quot n d).
(** A member after layout: offset and bit_offset. *)
Definition placed := (member * Z * Z)%type.
(** parse.c:3831-3836 and 3882-3887: the alignment collected. *)
Definition next_align (packed : bool) (alt : Z) (m : member) : Z :=
  if kept m then Z.max (if packed then alt else Z.max alt (m_align m)) (m_alt m) else alt.
(** parse.c:3837-3840. *)
Definition alt_bits (m : member) (bits : Z) : outcome Z :=
  if negb (m_alt m =? 0) && ((m_align m <? m_alt m) || negb (m_su m))
  then do a <- int_of (m_alt m * 8); align_to bits a
  else Ok bits.
(** parse.c:3847-3850: a bit-field that would cross a unit starts a new one. *)
Definition unit_bits (packed : bool) (m : member) (u bits : Z) : outcome Z :=
  if packed then Ok bits
  else
    do x <- int_of (bits + m_width m); do y <- int_of (x - 1);
    do p <- int_div bits u; do q <- int_div y u;
    if p =? q then Ok bits else align_to bits u.
(** One turn of the loop of struct_decl, parse.c:3837-3864: offset, bit_offset and the next value
    of bits. Both stay 0 for a width of 0 (the Member is from calloc). *)
Definition place_member (packed : bool) (bits : Z) (m : member) : outcome (Z * Z * Z) :=
  do bits1 <- alt_bits m bits;
  if m_bf m then
    if m_width m =? 0 then
      do u <- long_of (m_size m * 8);
      do bits2 <- align_to bits1 (int_conv u);
      Ok (0, 0, bits2)
    else
      let sz := int_conv (m_size m) in
      do u <- int_of (sz * 8);
      do bits2 <- unit_bits packed m u bits1;
      do o <- align_down (Z.quot bits2 8) sz;
      do bits3 <- int_of (bits2 + m_width m);
      if u =? 0 then UB else Ok (o, Z.rem bits2 u, bits3)
  else
    do a <- (if packed then Ok 8 else int_of (m_align m * 8));
    do bits2 <- align_to bits1 a;
    do n <- long_of (m_size m * 8);
    do bits3 <- long_of (bits2 + n);
    Ok (Z.quot bits2 8, 0, int_conv bits3).
(** The loop, parse.c:3830-3865; members that are not kept are dropped from the list. *)
Fixpoint struct_loop (packed : bool) (bits alt : Z) (ms : list member) : outcome (list placed * Z * Z) :=
  match ms with
  | [] => Ok ([], bits, alt)
  | m :: r =>
      do p <- place_member packed bits m;
      do q <- struct_loop packed (snd p) (next_align packed alt m) r;
      Ok ((if kept m then (m, fst (fst p), snd (fst p)) :: fst (fst q) else fst (fst q)), snd (fst q), snd q)
  end.
(** struct_decl, parse.c:3825-3876: members, ty->size, ty->align; new_type gives alignment 1 (3764). *)
Definition struct_decl (packed : bool) (alt : Z) (ms : list member) : outcome (list placed * Z * Z) :=
  do q <- struct_loop packed 0 alt ms;
  let bits := snd (fst q) in let alt' := snd q in
  let al := if alt' =? 0 then 1 else alt' in
  if (alt' =? 0) && packed
  then do s <- align_to bits 8; Ok (fst (fst q), Z.quot s 8, al)
  else do a <- int_of (al * 8); do s <- align_to bits a; Ok (fst (fst q), Z.quot s 8, al).
(** union_decl, parse.c:3878-3903: the members kept, ty->size, ty->align; all offsets stay 0. *)
Definition union_size (m : member) : outcome Z :=
  if m_bf m then do x <- align_to (m_width m) 8; Ok (Z.quot x 8) else Ok (int_conv (m_size m)).
Fixpoint union_loop (packed : bool) (size alt : Z) (ms : list member) : outcome (list member * Z * Z) :=
  match ms with
  | [] => Ok ([], size, alt)
  | m :: r =>
      do sz <- union_size m;
      do q <- union_loop packed (Z.max size sz) (next_align packed alt m) r;
      Ok ((if kept m then m :: fst (fst q) else fst (fst q)), snd (fst q), snd q)
  end.
Definition union_decl (packed : bool) (alt : Z) (ms : list member) : outcome (list placed * Z * Z) :=
  do q <- union_loop packed (-1) alt ms;
  let al := if snd q =? 0 then 1 else snd q in
  do s <- align_to (int_conv (Z.max (snd (fst q)) 0)) al;
  Ok (map (fun m => (m, 0, 0)) (fst (fst q)), s, al).
