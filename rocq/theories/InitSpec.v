(** Static initialisers: what the initial image of an object must be. *)
From Coq Require Import ZArith List Bool.
From Verif Require Import IntSpec CgSpec.
Import ListNotations.
Local Open Scope Z_scope.

(** Object types with their layout. A member has a type, a byte offset and, for a bit-field,
    its width and bit offset in the storage unit at that offset. *)
Inductive ctype :=
| CInt (i : ityp)
| CPtr
| CArr (b : ctype) (n : nat)
| CStr (ms : list (ctype * Z * option (Z * Z))) (size : Z)
| CUni (ms : list (ctype * Z * option (Z * Z))) (size : Z).
Definition member : Type := ctype * Z * option (Z * Z).

Fixpoint csize (t : ctype) : Z :=
  match t with
  | CInt i => isize i
  | CPtr => 8
  | CArr b n => csize b * Z.of_nat n
  | CStr _ s | CUni _ s => s
  end.

(** Initialisers: nothing, an integer constant with its mathematical value, the address of a
    label plus an addend, a list with one entry per element or member (of a union only entry
    [sel] counts). *)
Inductive ini :=
| INone
| IVal (v : Z)
| ILab (l : nat) (add : Z)
| IList (l : list ini) (sel : nat).

Definition within (p n k : Z) : bool := (p <=? k) && (k <? p + n).

(** Bits of a constant in a bit-field of type [t] at bit [p]. *)
Definition want_field (t : ctype) (x : ini) (p w k : Z) : bool :=
  match t, x with
  | CInt i, IVal v => within p w k && Z.testbit (conv i v) (k - p)
  | _, _ => false
  end.

(** Components put together, for a function [f] on subobjects. *)
Section Elements.
  Variable A : Type.
  Variables (none : A) (join : A -> A -> A).
  Variable f : ini -> Z -> A.
  Variable size : Z.
  Fixpoint on_elems (l : list ini) (o : Z) : A :=
    match l with
    | [] => none
    | x :: r => join (f x o) (on_elems r (o + size))
    end.
End Elements.
Section Components.
  Variable A : Type.
  Variable f : ctype -> ini -> Z -> A.
  Variable field : ctype -> ini -> Z -> Z -> A.
  Variables (none : A) (join : A -> A -> A).
  Definition on_member (off : Z) (m : member) (x : ini) : A :=
    match m with
    | (mt, mo, None) => f mt x (off + mo)
    | (mt, mo, Some (w, bo)) => field mt x (8 * (off + mo) + bo) w
    end.
  Fixpoint on_members (off : Z) (ms : list member) (l : list ini) : A :=
    match ms, l with
    | m :: mr, x :: r => join (on_member off m x) (on_members off mr r)
    | _, _ => none
    end.
  Fixpoint on_chosen (off : Z) (ms : list member) (l : list ini) (sel : nat) : A :=
    match ms, l, sel with
    | m :: _, x :: _, O => on_member off m x
    | _ :: mr, _ :: r, S s => on_chosen off mr r s
    | _, _, _ => none
    end.
End Components.

(** Bit [k] of the image of an object of type [t] at byte [off]: each scalar holds the value
    of its constant converted to its type, everything else is zero. *)
Fixpoint want (k : Z) (t : ctype) (x : ini) (off : Z) {struct t} : bool :=
  let field t x p w := want_field t x p w k in
  match t, x with
  | CInt i, IVal v => within (8 * off) (8 * isize i) k && Z.testbit (conv i v) (k - 8 * off)
  | CPtr, IVal v => within (8 * off) 64 k && Z.testbit v (k - 8 * off)
  | CArr b n, IList l _ => on_elems bool false orb (want k b) (csize b) l off
  | CStr ms _, IList l _ => on_members bool (want k) field false orb off ms l
  | CUni ms _, IList l sel => on_chosen bool (want k) field false off ms l sel
  | _, _ => false
  end.

(** The relocations: byte offset, label, addend, in the order of the members. *)
Definition rel : Type := Z * nat * Z.
Fixpoint want_rels (t : ctype) (x : ini) (off : Z) {struct t} : list rel :=
  let field _ _ _ _ := [] in
  match t, x with
  | (CPtr | CInt _), ILab l a => [(off, l, a)]
  | CArr b n, IList l _ => on_elems _ [] (@app rel) (want_rels b) (csize b) l off
  | CStr ms _, IList l _ => on_members _ want_rels field [] (@app rel) off ms l
  | CUni ms _, IList l sel => on_chosen _ want_rels field [] off ms l sel
  | _, _ => []
  end.

(** Well-laid-out types (what C22 shows of the layouts the compiler computes): members in
    order, apart, inside; a bit-field inside its unit, the unit inside the struct. *)
Definition mem_pos (m : member) : Z :=
  match m with (_, mo, None) => 8 * mo | (_, mo, Some (_, bo)) => 8 * mo + bo end.
Definition mem_bits (m : member) : Z :=
  match m with (mt, _, None) => 8 * csize mt | (_, _, Some (w, _)) => w end.
Definition mem_ok (size : Z) (m : member) : Prop :=
  match m with
  | (mt, mo, None) => 0 <= mo /\ mo + csize mt <= size
  | (mt, mo, Some (w, bo)) =>
      match mt with
      | CInt i => 0 <= mo /\ mo + isize i <= size /\ 1 <= w <= iwidth i /\ 0 <= bo /\
                  bo + w <= 8 * isize i
      | _ => False
      end
  end.
Fixpoint laid_out (t : ctype) : Prop :=
  match t with
  | CInt _ | CPtr => True
  | CArr b n => Z.of_nat n < 2 ^ 31 /\ laid_out b
  | CStr ms s =>
      0 <= s /\ Forall (mem_ok s) ms /\
      ForallOrdPairs (fun m m' => mem_pos m + mem_bits m <= mem_pos m') ms /\
      Forall (fun P => P) (map (fun m => laid_out (fst (fst m))) ms)
  | CUni ms s =>
      0 <= s /\ Forall (mem_ok s) ms /\
      Forall (fun P => P) (map (fun m => laid_out (fst (fst m))) ms)
  end.

(** Initialisers that fit their type: lists have one entry per element or member; constants
    are values of some integer type; labels initialise pointers and integers of their size. *)
Fixpoint fits (t : ctype) (x : ini) (off : Z) {struct t} : Prop :=
  let field _ x _ _ :=
    match x with INone => True | IVal v => - 2 ^ 63 <= v < 2 ^ 64 | _ => False end in
  match t, x with
  | _, INone => True
  | (CInt _ | CPtr), IVal v => - 2 ^ 63 <= v < 2 ^ 64
  | CPtr, ILab _ _ => True
  | CInt i, ILab _ _ => isize i = 8
  | CArr b n, IList l _ => length l = n /\ on_elems Prop True and (fits b) (csize b) l off
  | CStr ms _, IList l _ | CUni ms _, IList l _ =>
      length l = length ms /\ on_members Prop fits field True and off ms l
  | _, _ => False
  end.

(** The constants for which the compiler computes the bits of a bit-field. *)
Fixpoint good_fields (t : ctype) (x : ini) (off : Z) {struct t} : Prop :=
  let field t x _ w :=
    match t, x with
    | CInt i, IVal v => w <= 62 /\ (i = TBool -> v = 0 \/ Z.odd v = true)
    | _, _ => True
    end in
  match t, x with
  | CArr b n, IList l _ => on_elems Prop True and (good_fields b) (csize b) l off
  | CStr ms _, IList l _ => on_members Prop good_fields field True and off ms l
  | CUni ms _, IList l sel => on_chosen Prop good_fields field True off ms l sel
  | _, _ => True
  end.

Definition bytes_ok (l : list Z) : Prop := Forall (fun b => 0 <= b < 256) l.
(** Bits of a list of bytes. *)
Definition bit_at (b : list Z) (k : Z) : bool :=
  (0 <=? k) && Z.testbit (nth (Z.to_nat (k / 8)) b 0) (k mod 8).

(** *** Data directives of the assembler. *)
Inductive directive :=
| DQuad (z : Z) | DInt (z : Z) | DWord (z : Z) | DByte (z : Z)
| DRel (l : nat) (add : Z) | DZero (n : Z).
(** What a byte of the object file is: a value, or byte [k] of the relocated address. *)
Inductive cell := Val (z : Z) | Rel (l : nat) (add : Z) (k : nat).

Fixpoint le_bytes (n : nat) (z : Z) : list cell :=
  match n with O => [] | S m => Val (z mod 256) :: le_bytes m (z / 256) end.
Definition assemble1 (d : directive) : list cell :=
  match d with
  | DQuad z => le_bytes 8 z
  | DInt z => le_bytes 4 z
  | DWord z => le_bytes 2 z
  | DByte z => le_bytes 1 z
  | DRel l a => map (Rel l a) (seq 0 8)
  | DZero n => repeat (Val 0) (Z.to_nat n)
  end.
Definition assemble (l : list directive) : list cell := flat_map assemble1 l.

(** The object: the image with the relocations over it. *)
Fixpoint cell_of (img : list Z) (rels : list rel) (k : Z) : cell :=
  match rels with
  | [] => Val (nth (Z.to_nat k) img 0)
  | (o, l, a) :: r =>
      if (o <=? k) && (k <? o + 8) then Rel l a (Z.to_nat (k - o)) else cell_of img r k
  end.
(** Relocations in order, apart, inside the object. *)
Fixpoint rels_ok (lo size : Z) (rels : list rel) : Prop :=
  match rels with
  | [] => lo <= size
  | (o, _, _) :: r => lo <= o /\ rels_ok (o + 8) size r
  end.
