(** Specification for the layout of structs and unions (System V ABI, with the packed and aligned
    attributes). Positions are in bits from the start. *)
From Coq Require Import ZArith List Bool.
From Verif Require Import FrameSpec.
Import ListNotations.
Local Open Scope Z_scope.

(** A member: bit-field or not, with a name or not, width of a bit-field, size and alignment of its
    type, alignment asked for (0: none), whether its type is a struct or union. *)
Record member := mkmem { m_bf : bool; m_named : bool; m_width : Z; m_size : Z; m_align : Z; m_alt : Z; m_su : bool }.
Definition m_bits (m : member) : Z := if m_bf m then m_width m else 8 * m_size m.
(** The smallest position from [lo] on with a property. *)
Definition least (P : Z -> Prop) (lo s : Z) : Prop := lo <= s /\ P s /\ forall s', lo <= s' < s -> ~ P s'.
(** Where a member may be: at a multiple of the alignment asked for and, unless packed, of that of
    its type; a bit-field, unless packed, inside one unit of its type; one of width 0 ends the
    current unit. *)
Definition may_start (packed : bool) (m : member) (s : Z) : Prop :=
  (m_alt m <> 0 -> (8 * m_alt m | s)) /\
  if m_bf m
  then if m_width m =? 0 then (8 * m_size m | s)
       else packed = false -> exists k, 8 * m_size m * k <= s /\ s + m_width m <= 8 * m_size m * (k + 1)
  else (8 | s) /\ (packed = false -> (8 * m_align m | s)).
(** Each member in turn is put at the first place where it may be. *)
Inductive layout (packed : bool) : Z -> list member -> list (member * Z) -> Z -> Prop :=
| lay_nil : forall e, layout packed e [] [] e
| lay_next : forall lo m s r l e, least (may_start packed m) lo s -> layout packed (s + m_bits m) r l e ->
    layout packed lo (m :: r) ((m, s) :: l) e.
(** Unnamed bit-fields are not members, and do not count for the alignment. *)
Definition kept (m : member) : bool := negb (m_bf m) || m_named m.
(** Alignments the whole must have. *)
Definition demands (packed : bool) (asked : Z) (ms : list member) : list Z :=
  1 :: asked :: flat_map (fun m => if packed then [m_alt m] else [m_alt m; m_align m]) (filter kept ms).
Definition greatest (l : list Z) (x : Z) : Prop := In x l /\ forall y, In y l -> y <= x.
(** A byte offset [o] and bit offset [b] stand for position [s]: the bit offset of a bit-field is
    counted from the start of a unit of its type, which holds all of it unless packed. *)
Definition spot (packed : bool) (m : member) (s : Z) (o b : Z) : Prop :=
  8 * o + b = s /\ if m_bf m then (m_size m | o) /\ 0 <= b < 8 * m_size m /\ (packed = false -> b + m_width m <= 8 * m_size m) else b = 0.
(** What the language asks of members: alignments are powers of two; bit-fields have integer types,
    are no wider than these, and have no name if of width 0. The last line is about a limitation,
    see C22_asked_refuted. *)
Definition wf_mem (packed : bool) (m : member) : Prop :=
  0 <= m_size m /\ pow2 (m_align m) /\ (m_alt m = 0 \/ pow2 (m_alt m)) /\
  (m_bf m = true -> pow2 (m_size m) /\ 0 <= m_width m <= 8 * m_size m /\ (m_width m = 0 -> m_named m = false) /\ m_su m = false) /\
  (packed = true -> m_su m = true -> m_alt m <> 0 -> m_align m < m_alt m).
