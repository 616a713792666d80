(** Argument types and where the System V AMD64 ABI (3.2.3) puts arguments, written without reference to
    the code. *)
From Coq Require Import ZArith List Bool.
From Verif Require Import X86 Sse MemSpec.
Import ListNotations.
Local Open Scope Z_scope.

(** Types of arguments: an integer or pointer of so many bytes, the floating types, a structure or union
    (size, alignment, members with offsets), an array. [APad n] stands for an unnamed bit-field
    in a storage unit of n bytes; named bit-fields are members of the size of their unit. *)
Inductive aty : Type :=
| AGp (unsigned : bool) (size : Z)
| AFloat | ADouble | ALdouble
| APad (size : Z)
| ARec (size align : Z) (ms : list (Z * aty))
| AArr (len : Z) (b : aty).

Fixpoint asize (t : aty) : Z :=
  match t with
  | AGp _ n | APad n => n
  | AFloat => 4 | ADouble => 8 | ALdouble => 16
  | ARec n _ _ => n
  | AArr len b => len * asize b
  end.
Fixpoint aalign (t : aty) : Z :=
  match t with
  | AGp _ n | APad n => n
  | AFloat => 4 | ADouble => 8 | ALdouble => 16
  | ARec _ a _ => a
  | AArr _ b => aalign b
  end.
Definition is_scalar (t : aty) : bool := match t with ARec _ _ _ | AArr _ _ => false | _ => true end.

(** The scalar fields with their offsets. An unnamed bit-field is padding. *)
Fixpoint leaves (t : aty) (off : Z) : list (Z * aty) :=
  match t with
  | APad _ => []
  | ARec _ _ ms => flat_map (fun p => leaves (snd p) (off + fst p)) ms
  | AArr len b => flat_map (fun i => leaves b (off + asize b * Z.of_nat i)) (seq 0 (Z.to_nat len))
  | _ => [(off, t)]
  end.
(** The field occupies bytes of [lo, hi). *)
Definition overlaps (p : Z * aty) (lo hi : Z) : bool := (lo <? fst p + asize (snd p)) && (fst p <? hi).

(** ** Classes *)
Inductive cls := NoClass | Integer | Sse | X87 | X87up | Memory.
Definition merge (a b : cls) : cls :=
  match a, b with
  | NoClass, c | c, NoClass => c
  | Memory, _ | _, Memory => Memory
  | Integer, _ | _, Integer => Integer
  | Sse, Sse => Sse
  | X87, X87 => X87 | X87up, X87up => X87up
  | _, _ => Memory
  end.
(** Class of the part of a scalar field in eightbyte number [e]. *)
Definition leaf_cls (p : Z * aty) (e : nat) : cls :=
  if overlaps p (8 * Z.of_nat e) (8 * Z.of_nat e + 8) then
    match snd p with
    | AFloat | ADouble => Sse
    | ALdouble => if fst p =? 8 * Z.of_nat e then X87 else X87up
    | _ => Integer
    end
  else NoClass.
Definition eightbyte (l : list (Z * aty)) (e : nat) : cls := fold_right (fun p c => merge (leaf_cls p e) c) NoClass l.
Definition unaligned (p : Z * aty) : bool := negb (fst p mod aalign (snd p) =? 0).
Definition cls_eqb (a b : cls) : bool :=
  match a, b with
  | NoClass, NoClass | Integer, Integer | Sse, Sse | X87, X87 | X87up, X87up | Memory, Memory => true
  | _, _ => false
  end.
(** 3.2.3: larger than two eightbytes or with unaligned fields: memory. *)
Definition sysv_classes (t : aty) : list cls :=
  let l := leaves t 0 in
  if (16 <? asize t) || existsb unaligned l then [Memory]
  else
    let c := map (eightbyte l) (seq 0 (Z.to_nat ((asize t + 7) / 8))) in
    match c with
    | [X87; X87up] => c
    | _ => if existsb (cls_eqb Memory) c || existsb (cls_eqb X87up) c then [Memory] else c
    end.

(** ** Places *)
Inductive place := InRegs (l : list (reg + nat)) | OnStack (ofs : Z).
Definition int_regs : list reg := [DI; SI; DX; CX; R8; R9].
Definition sse_regs : list nat := [0; 1; 2; 3; 4; 5; 6; 7]%nat.
Definition in_memory (c : list cls) : bool :=
  existsb (fun x => cls_eqb Memory x || cls_eqb X87 x || cls_eqb X87up x) c.
Definition count (x : cls) (c : list cls) : nat := length (filter (cls_eqb x) c).
Fixpoint take_regs (c : list cls) (ints : list reg) (sses : list nat) : list (reg + nat) :=
  match c with
  | [] => []
  | Integer :: r => match ints with i :: ii => inl i :: take_regs r ii sses | [] => [] end
  | Sse :: r => match sses with x :: xx => inr x :: take_regs r ints xx | [] => [] end
  | _ :: r => take_regs r ints sses
  end.
Definition round_up (n a : Z) : Z := (n + a - 1) / a * a.
(** Registers are taken from left to right; an argument that does not get all its registers goes to
    the stack as a whole. Stack slots are multiples of eight bytes and respect the alignment of the type. *)
Fixpoint sysv_places (ts : list aty) (ints : list reg) (sses : list nat) (stack : Z) : list place :=
  match ts with
  | [] => []
  | t :: r =>
      let c := sysv_classes t in
      let ni := count Integer c in
      let ns := count Sse c in
      if in_memory c || (length ints <? ni)%nat || (length sses <? ns)%nat then
        let o := round_up stack (Z.max 8 (aalign t)) in
        OnStack o :: sysv_places r ints sses (o + round_up (asize t) 8)
      else InRegs (take_regs c ints sses) :: sysv_places r (skipn ni ints) (skipn ns sses) stack
  end.

(** Where a piece of code puts its results. *)
Definition dest (i : xinstr) : list (reg + nat) :=
  match i with
  | G (Mov _ _ (R _ r)) | G (Movx _ _ _ _ (R _ r)) => [inl r]
  | MovssLd _ _ x | MovsdLd _ _ x => [inr x]
  | _ => []
  end.

(** ** Types the theorems are about *)
Definition pow2 (a : Z) : Prop := exists k, 0 <= k <= 30 /\ a = 2 ^ k.
Definition member_order (p q : Z * aty) : Prop :=
  fst p <= fst q \/ (match snd q with AGp _ _ => True | _ => False end /\ fst p < fst q + asize (snd q)).
(** Layout as C compilers do it: every field aligned, inside its structure; later members do not begin
    before earlier ones, except that a bit-field may belong to a unit that began earlier. *)
Fixpoint natural (t : aty) : Prop :=
  match t with
  | AGp _ n => n = 1 \/ n = 2 \/ n = 4 \/ n = 8
  | AFloat | ADouble | ALdouble => True
  | APad _ => False
  | ARec n a ms =>
      pow2 a /\ 0 <= n <= 2147483647 /\ n mod a = 0 /\ ForallOrdPairs member_order ms /\
      (fix all (l : list (Z * aty)) : Prop :=
         match l with
         | [] => True
         | (o, m) :: r =>
             (0 <= o /\ o + asize m <= n /\ o mod aalign m = 0 /\ a mod aalign m = 0 /\ natural m) /\ all r
         end) ms
  | AArr len b => 0 <= len <= 2147483647 /\ natural b
  end.
Definition no_ldouble (t : aty) : Prop := forall p, In p (leaves t 0) -> snd p <> ALdouble.
(** Every eightbyte has a field. *)
Definition covered (t : aty) : Prop :=
  forall e, 0 <= e -> 8 * e < asize t -> exists p, In p (leaves t 0) /\ overlaps p (8 * e) (8 * e + 8) = true.
(** An argument is a scalar or a structure or union, and not empty. *)
Definition argument (t : aty) : Prop :=
  natural t /\ 1 <= asize t /\ match t with AArr _ _ => False | _ => True end.
(** Bytes that the arguments may take on the stack. *)
Fixpoint stack_bytes (ts : list aty) : Z :=
  match ts with [] => 0 | t :: r => asize t + 8 + aalign t + stack_bytes r end.

(** ** Objects that are passed *)
(** An object of type [l_ty] at address [l_addr], which the code reaches as l_ofs(l_base). *)
Record loc := mkloc { l_ty : aty; l_base : base; l_ofs : Z; l_addr : Z }.
Definition l_place (l : loc) : base * Z := (l_base l, l_ofs l).
(** The base is not one of the registers for arguments; offsets are of type int. *)
Definition loc_ok (l : loc) : Prop :=
  match l_base l with BReg r => ~ In r int_regs | BSym _ => True end /\
  -2147483648 <= l_ofs l /\ l_ofs l + asize (l_ty l) <= 2147483647.
Definition located (sym : nat -> Z) (m : mach) (l : loc) : Prop :=
  addr_of sym m (l_base l) (l_ofs l) (l_addr l) (asize (l_ty l)).
(** The address lies outside the object. *)
Definition outside (x : Z) (l : loc) : Prop := x < l_addr l \/ l_addr l + asize (l_ty l) <= x.
Definition disjoint (a b : loc) : Prop :=
  l_addr a + asize (l_ty a) <= l_addr b \/ l_addr b + asize (l_ty b) <= l_addr a.
(** No eightbyte without fields, unless it is a full one. *)
Definition full (t : aty) : Prop := asize t <= 16 -> covered t \/ asize t = 8 \/ asize t = 16.

(** Place of an argument, from its stack offset, if any, and the code that loads it. *)
Definition place_of (q : option Z * list xinstr) : place :=
  match q with (Some o, _) => OnStack o | (None, c) => InRegs (flat_map dest c) end.
(** Types for which the code follows the ABI. *)
Definition abi_type (t : aty) : Prop := argument t /\ ((no_ldouble t /\ (asize t <= 16 -> covered t)) \/ t = ALdouble).

(** What the register of a scalar argument holds, [v] being the bytes of the argument as a number: small integers are
    extended to 32 bits according to their signedness. *)
Definition extended (t : aty) (v : Z) : Z :=
  match t with
  | AGp u n => if n <? 4 then (if u then v else if v <? 2 ^ (8 * n - 1) then v else v - 2 ^ (8 * n)) mod 2 ^ 32 else v
  | _ => v
  end.
(** %rcx holds an address while a structure is loaded for returning. *)
Definition not_cx (d : reg + nat) : bool := match d with inl CX => false | _ => true end.
