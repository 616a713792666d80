(** Model of static initialisation: parse.c write_gvar_data and codegen.c emit_data.
    Simplifications: initialisers are trees with evaluated constants (C16); floating-point
    members, copies of other constant objects (parse.c:2100-2128) and flexible array members
    are omitted; the buffer is a list of bytes and an access outside it is undefined. *)
From Coq Require Import ZArith List Bool.
From Verif Require Import Base IntSpec IntModel CgSpec InitSpec.
Import ListNotations.
Local Open Scope Z_scope.

(** Little-endian bytes, and the access to [n] bytes at [o]. *)
Fixpoint to_bytes (n : nat) (z : Z) : list Z :=
  match n with O => [] | S m => z mod 256 :: to_bytes m (z / 256) end.
Fixpoint of_bytes (l : list Z) : Z :=
  match l with [] => 0 | b :: r => b + 256 * of_bytes r end.
Definition rd_buf (buf : list Z) (o n : Z) : outcome Z :=
  if (0 <=? o) && (o + n <=? Z.of_nat (length buf))
  then Ok (of_bytes (firstn (Z.to_nat n) (skipn (Z.to_nat o) buf))) else UB.
Definition wr_buf (buf : list Z) (o n v : Z) : outcome (list Z) :=
  if (0 <=? o) && (o + n <=? Z.of_nat (length buf))
  then Ok (firstn (Z.to_nat o) buf ++ to_bytes (Z.to_nat n) v ++ skipn (Z.to_nat (o + n)) buf)
  else UB.

(** parse.c:2031-2041. *)
Definition read_buf (buf : list Z) (o n : Z) : outcome Z :=
  if (n =? 1) || (n =? 2) || (n =? 4) || (n =? 8) then rd_buf buf o n else Abort.

(** parse.c:2974-3003: the value of a cast to an integer type of a constant. *)
Definition eval_cast (t : ty) (r : Z) : Z :=
  if is_bool t then z_of_bool (negb (r =? 0)) else eval_sign_extend t r.

Definition state : Type := list Z * list rel.

(** parse.c:2071-2084. [IVal v]: eval of the cast to the struct type gives the int64_t with the same low bits as [v]. *)
Definition write_bitfield (i : ityp) (w bo : Z) (x : ini) (o : Z) (s : state) : outcome state :=
  match x with
  | IVal v =>
      do old <- read_buf (fst s) o (sz (mty i));
      let newval := trunc 64 v in
      do one <- long_of (2 ^ w);
      let mask := trunc 64 (one - 1) in
      let combined := Z.lor old (trunc 64 (Z.land newval mask * 2 ^ bo)) in
      do b <- wr_buf (fst s) o (sz (mty i)) combined;
      Ok (b, snd s)
  | _ => Abort
  end.

Section Elems.
  Variable W : ini -> Z -> state -> outcome state.
  Variable sz : Z.
  (** parse.c:2061-2064, element [i] of [n] left. *)
  Fixpoint write_elems (offset : Z) (n : nat) (l : list ini) (i : Z) (s : state)
    : outcome state :=
    match n, l with
    | O, _ => Ok s
    | S _, [] => UB
    | S n, x :: r =>
        do p <- int_of (sz * i);
        do o <- int_of (offset + p);
        do s1 <- W x o s;
        do j <- int_of (i + 1);
        write_elems offset n r j s1
    end.
End Elems.

Section Write.
  Variable W : ctype -> ini -> Z -> state -> outcome state.
  (** parse.c:2069-2086. *)
  Definition write_mem (offset : Z) (m : member) (x : ini) (s : state) : outcome state :=
    match m with
    | (mt, mo, bf) =>
        do o <- int_of (offset + mo);
        match bf, mt, x with
        | Some (w, bo), CInt i, (IVal _ | ILab _ _) => write_bitfield i w bo x o s
        | _, _, _ => W mt x o s
        end
    end.
  (** parse.c:2067-2088 for a struct. *)
  Fixpoint write_members (offset : Z) (ms : list member) (l : list ini) (s : state)
    : outcome state :=
    match ms, l with
    | [], _ => Ok s
    | _ :: _, [] => UB
    | m :: mr, x :: r => do s1 <- write_mem offset m x s; write_members offset mr r s1
    end.
  (** parse.c:2067-2088 for a union whose initmem is member [sel]. *)
  Fixpoint write_chosen (offset : Z) (ms : list member) (l : list ini) (sel : nat) (s : state)
    : outcome state :=
    match ms, l, sel with
    | [], _, _ => Ok s
    | _ :: _, [], _ => UB
    | m :: _, x :: _, O => write_mem offset m x s
    | _ :: mr, _ :: r, S k => write_chosen offset mr r k s
    end.
End Write.

(** parse.c:2054-2168. *)
Fixpoint write_gvar_data (t : ctype) (x : ini) (offset : Z) (s : state) {struct t}
  : outcome state :=
  match x with
  | INone => Ok s
  | IList l sel =>
      match t with
      | CArr b n => write_elems (write_gvar_data b) (int_conv (csize b)) offset n l 0 s
      | CStr ms _ => write_members write_gvar_data offset ms l s
      | CUni ms _ => write_chosen write_gvar_data offset ms l sel s
      | _ => Abort
      end
  | IVal v =>
      match t with
      | CInt i =>
          do b <- wr_buf (fst s) offset (sz (mty i)) (eval_cast (mty i) (i64 v)); Ok (b, snd s)
      | CPtr => do b <- wr_buf (fst s) offset 8 (i64 v); Ok (b, snd s)
      | _ => Abort
      end
  | ILab l a =>
      match t with
      | CPtr => Ok (fst s, snd s ++ [(offset, l, a)])
      | CInt i => if sz (mty i) =? 8 then Ok (fst s, snd s ++ [(offset, l, a)]) else Abort
      | _ => Abort
      end
  end.

(** parse.c:2174-2186. *)
Definition gvar_initializer (t : ctype) (x : ini) : outcome state :=
  write_gvar_data t x 0 (repeat 0 (Z.to_nat (csize t)), []).

(** codegen.c:3973-3992. [int rem] is the conversion to int of a difference that is an int
    or an int64_t; reads outside the buffer are undefined. *)
Fixpoint emit_run (fuel : nat) (data : list Z) (pos rem : Z) : outcome (list directive * Z) :=
  if rem <=? 0 then Ok ([], pos) else
  match fuel with
  | O => Abort
  | S f =>
      let step (n : Z) (mk : Z -> directive) :=
        do v <- rd_buf data pos n;
        do p <- int_of (pos + n);
        do q <- emit_run f data p (rem - n);
        Ok (mk v :: fst q, snd q) in
      if 8 <=? rem then step 8 DQuad
      else if 4 <=? rem then step 4 DInt
      else if 2 <=? rem then step 2 (fun v => DWord (sext 16 v))
      else step 1 (fun v => DByte (sext 8 v))
  end.

Fixpoint emit_loop (data : list Z) (size : Z) (rels : list rel) (pos : Z)
  : outcome (list directive) :=
  match rels with
  | [] =>
      let rem := int_conv (size - pos) in
      do p <- emit_run (Z.to_nat rem) data pos rem; Ok (fst p)
  | (o, l, a) :: r =>
      do rem <- int_of (o - pos);
      do p <- emit_run (Z.to_nat rem) data pos rem;
      do pos2 <- int_of (snd p + 8);
      do d <- emit_loop data size r pos2;
      Ok (fst p ++ DRel l a :: d)
  end.

(** codegen.c:3966-3992. *)
Definition emit_data (size : Z) (img : option state) : outcome (list directive) :=
  match img with
  | None => Ok [DZero size]
  | Some (data, rels) => emit_loop data size rels 0
  end.
