(** Specification of the arguments of a call: which values they have and where the System V
    ABI puts them. Integer arguments only. *)
From Coq Require Import ZArith List Bool.
From Verif Require Import IntSpec X86.
Import ListNotations.
Local Open Scope Z_scope.

(** An argument: the type of its parameter (none if it matches the ellipsis or there is no
    prototype), the expression, and the name of the object the compiler makes for it. *)
Record sarg := mksarg { sa_param : option ityp; sa_e : exp; sa_x : nat }.

(** C11 6.5.2.2p6-7: the type of the parameter, or else the promoted type. *)
Definition arg_type (a : sarg) : ityp :=
  match sa_param a with
  | Some t => t
  | None => if iwidth (ctype (sa_e a)) <? 32 then TInt else ctype (sa_e a)
  end.

(** The argument is converted to that type as if by assignment. *)
Definition arg_value (env : nat -> Z) (a : sarg) : option Z :=
  match ceval env (sa_e a) with Some v => Some (conv (arg_type a) v) | None => None end.

(** System V ABI 3.2.3: integers go to six registers in order (the first is taken by the
    address of the result if [hidden]), the others to the stack, eight bytes each. *)
Inductive aplace := InReg (r : reg) | OnStack (ofs : Z).
Definition abi_regs : list reg := [DI; SI; DX; CX; R8; R9].
Definition arg_place (hidden : bool) (i : nat) : aplace :=
  let k := ((if hidden then 1 else 0) + i)%nat in
  match nth_error abi_regs k with
  | Some r => InReg r
  | None => OnStack (8 * (Z.of_nat k - 6))
  end.
