(** Model of the folding of constant offsets into addresses, codegen.c:2760-2798, 2934-2958,
    2961-2988. Used when optimising. *)
From Coq Require Import ZArith List Bool.
From Verif Require Import Base IntSpec IntModel X86 CgModel DerefSpec.
Import ListNotations.
Local Open Scope Z_scope.

(** The loop of gen_deref_opt on integer nodes (below a cast to a pointer) and on pointer
    arithmetic written in the integer model; codegen.c:2768-2776. ofs is an int64_t,
    additions wrap. *)
Fixpoint strip (G : genv) (n : node) (ofs : Z) : outcome (node * Z) :=
  match n with
  | NBin BAdd _ a b =>
      do k <- const_of G b;
      match k with Some v => strip G a (i64 (ofs + v)) | None => Ok (n, ofs) end
  | NBin BSub _ a b =>
      do k <- const_of G b;
      match k with Some v => strip G a (i64 (ofs - v)) | None => Ok (n, ofs) end
  | _ => Ok (n, ofs)
  end.

(** gen_deref_opt (codegen.c:2760-2781): casts to pointers, dereferences of array type and
    constants are passed over, what remains is generated. Its arguments that are members are
    generated by gen_expr, which for arrays adds the offset (codegen.c:2945-2956). *)
Fixpoint gen_deref_opt (G : genv) (f : nat) (p : ptr) (ofs : Z) (st : gst) : outcome (Z * gst) :=
  match p with
  | QLeaf e | QInt e =>
      do n <- elab (gc G) e;
      do q <- strip G n ofs;
      do st1 <- gen G f MExpr (fst q) st; Ok (snd q, st1)
  | QCast p => gen_deref_opt G f p ofs st
  | QAdd p k => gen_deref_opt G f p (i64 (ofs + k)) st
  | QSub p k => gen_deref_opt G f p (i64 (ofs - k)) st
  | QDecay (LDeref p) => gen_deref_opt G f p ofs st
  | QDecay (LMem l o) =>
      do q <- gen_member_opt G f l (i64 o) st;
      Ok (ofs, emit (imm_add S8 AX DX (fst q)) (snd q))
  | QAddr l => do st1 <- gen_addr_opt G f l st; Ok (ofs, st1)
  | QLoad l => do st1 <- gen_load G f ty_ulong l st; Ok (ofs, st1)
  end
(** gen_addr_opt (codegen.c:2961-2988). No object is a named variable here. *)
with gen_addr_opt (G : genv) (f : nat) (l : lval) (st : gst) : outcome gst :=
  match l with
  | LDeref p =>
      do q <- gen_deref_opt G f p 0 st;
      Ok (emit (imm_add S8 AX DX (fst q)) (snd q))
  | LMem l o => 
      do q <- gen_member_opt G f l (i64 o) st;
      Ok (emit (imm_add S8 AX DX (fst q)) (snd q))
  end
(** gen_member_opt (codegen.c:2783-2798) from the object [l] with the offset so far. *)
with gen_member_opt (G : genv) (f : nat) (l : lval) (ofs : Z) (st : gst) : outcome (Z * gst) :=
  match l with
  | LMem l o => gen_member_opt G f l (i64 (ofs + o)) st
  | LDeref p =>
      do q <- gen_deref_opt G f p 0 st;
      Ok (ofs, emit (imm_add S8 AX DX (fst q)) (snd q))
  end
(** Value of an object of scalar type [t] (codegen.c:2934-2942, 2945-2952); load2 and load
    take the offset as an int (codegen.c:802-806, 808-816). *)
with gen_load (G : genv) (f : nat) (t : ty) (l : lval) (st : gst) : outcome gst :=
  match l with
  | LDeref p =>
      do q <- gen_deref_opt G f p 0 st;
      do c <- load3 t (BReg AX) (sext 32 (fst q)); Ok (emit c (snd q))
  | LMem l o =>
      do q <- gen_member_opt G f l (i64 o) st;
      do c <- load3 t (BReg AX) (sext 32 (fst q)); Ok (emit c (snd q))
  end.
