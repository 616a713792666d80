(** What va_arg has to deliver. *)
From Coq Require Import ZArith List Bool.
From Verif Require Import Base X86 Sse MemSpec CallSpec VaModel.
Import ListNotations.
Local Open Scope Z_scope.

(** The va_list object, the area where the registers are saved, and the arguments on the stack. *)
Record venv := mkv { v_ap : Z; v_area : Z; v_stk : Z; v_len : Z }.
Definition within (x a n : Z) : Prop := a <= x < a + n.
Definition apart (a n b k : Z) : Prop := a + n <= b \/ b + k <= a.
Definition untouched (e : venv) (f g : Z -> Z) : Prop :=
  forall x, within x (v_ap e) 24 \/ within x (v_area e) 176 \/ within x (v_stk e) (v_len e) -> g x = f x.
(** The object for the copy of a structure does not overlap any of them. *)
Definition clear (e : venv) (d : loc) : Prop :=
  apart (l_addr d) (asize (l_ty d)) (v_ap e) 24 /\ apart (l_addr d) (asize (l_ty d)) (v_area e) 176 /\
  apart (l_addr d) (asize (l_ty d)) (v_stk e) (v_len e).
Definition env_ok (e : venv) : Prop :=
  0 <= v_ap e /\ v_ap e + 24 <= 2 ^ 64 /\ 0 <= v_area e /\ v_area e + 176 <= 2 ^ 64 /\ 0 <= v_stk e /\ v_stk e + v_len e < 2 ^ 64 /\
  apart (v_ap e) 24 (v_area e) 176 /\ apart (v_ap e) 24 (v_stk e) (v_len e).

(** From the state [m] on, one use of va_arg after the other delivers the values: whatever the program does in between
    to other objects and registers, the code leaves in %rax the address of an object with the bytes
    of the next argument; it only writes to the va_list and to its own object. *)
Fixpoint delivers (sym : nat -> Z) (e : venv) (l : list (loc * (Z -> Z))) (m : xmach) : Prop :=
  match l with
  | [] => True
  | (d, val) :: r =>
      exists c, va_arg (l_ty d) (l_base d) (l_ofs d) = Ok c /\
      forall m1, untouched e (mm (im m)) (mm (im m1)) -> rg (im m1) AX = v_ap e -> located sym (im m1) d -> clear e d ->
      exists m2, xjrun sym c None m1 = Some (None, m2) /\
        (forall j, 0 <= j < asize (l_ty d) -> byte_eq (mm (im m2) (rg (im m2) AX + j)) (val j)) /\
        (forall x, ~ within x (v_ap e) 24 -> outside x d -> mm (im m2) x = mm (im m1) x) /\
        (forall q, ~ In q [AX; CX; DX] -> rg (im m2) q = rg (im m1) q) /\
        delivers sym e r m2
  end.
