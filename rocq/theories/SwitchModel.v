(** Model of switch: reading case labels (parse.c, label_stmt) and the comparisons emitted
    (codegen.c, ND_SWITCH). *)
From Coq Require Import ZArith List Bool.
From Verif Require Import Base X86 CgModel SwitchSpec.
Import ListNotations.
Local Open Scope Z_scope.

(** CaseRange, slimcc.h:420-425; a NULL label is [None]. The list is in the order of the links: the
    last one read is first. lo and hi are int64_t. *)
Record crange := mkcr { cr_label : option label; cr_lo : Z; cr_hi : Z }.
(** cases and default_case of the ND_SWITCH node. *)
Record sw := mksw { sw_cases : list crange; sw_default : option label }.
(** less_eq, parse.c:260-264. The comparison of uint64_t with int64_t converts the latter. *)
Definition less_eq (t : ctype) (a b : Z) : bool :=
  if ct_uns t && (ct_size t =? 8) then trunc 64 a <=? trunc 64 b else a <=? b.
(** parse.c:2370-2376. The type is that of the controlling expression, not promoted. *)
Definition narrow (t : ctype) (z : Z) : Z :=
  if ct_size t <=? 4 then if ct_uns t then trunc 32 z else sext 32 z else z.
(** parse.c:2380-2383: a duplicated case. *)
Definition duplicated (t : ctype) (lo hi : Z) (c : crange) : bool :=
  (less_eq t (cr_lo c) lo && less_eq t lo (cr_hi c)) || (less_eq t lo (cr_lo c) && less_eq t (cr_lo c) hi).
(** parse.c:2389-2399: positions of lo_adj and hi_adj. *)
Fixpoint find_adj (t : ctype) (l : label) (lo hi : Z) (cs : list crange) (i : nat) (la ha : option nat) : option nat * option nat :=
  match cs with
  | [] => (la, ha)
  | c :: r =>
      match cr_label c with
      | None => find_adj t l lo hi r (S i) la ha
      | Some l' =>
          if negb (label_eqb l' l) then (la, ha)
          else if less_eq t (cr_hi c) lo && (trunc 64 (trunc 64 (cr_hi c) + 1) =? trunc 64 lo) then find_adj t l lo hi r (S i) (Some i) ha
          else if less_eq t hi (cr_lo c) && (trunc 64 (trunc 64 hi + 1) =? trunc 64 (cr_lo c)) then find_adj t l lo hi r (S i) la (Some i)
          else find_adj t l lo hi r (S i) la ha
      end
  end.
Definition set_hi (c : crange) (h : Z) : crange := mkcr (cr_label c) (cr_lo c) h.
Definition set_lo (c : crange) (l : Z) : crange := mkcr (cr_label c) l (cr_hi c).
Definition no_label (c : crange) : crange := mkcr None (cr_lo c) (cr_hi c).
Definition upd_at (cs : list crange) (i : nat) (f : crange -> crange) : list crange :=
  match nth_error cs i with Some c => upd cs i (f c) | None => cs end.
(** One case or default label, parse.c:2354-2420. [opt]: opt_optimize. Messages are Abort. The
    search for the enclosing switch is not modelled. *)
Definition add_item (opt : bool) (t : ctype) (s : sw) (i : item label) : outcome sw :=
  match i with
  | IDefault l => match sw_default s with Some _ => Abort | None => Ok (mksw (sw_cases s) (Some l)) end
  | ICase l lo0 hi0 =>
      let lo := narrow t lo0 in let hi := narrow t hi0 in
      if negb (hi =? lo) && less_eq t hi lo then Abort
      else if existsb (duplicated t lo hi) (sw_cases s) then Abort
      else
        let add := mksw (mkcr (Some l) lo hi :: sw_cases s) (sw_default s) in
        if opt then
          match find_adj t l lo hi (sw_cases s) 0 None None with
          | (Some a, Some b) =>
              match nth_error (sw_cases s) b with
              | Some h => Ok (mksw (upd_at (upd_at (sw_cases s) a (fun c => set_hi c (cr_hi h))) b no_label) (sw_default s))
              | None => UB
              end
          | (Some a, None) => Ok (mksw (upd_at (sw_cases s) a (fun c => set_hi c hi)) (sw_default s))
          | (None, Some b) => Ok (mksw (upd_at (sw_cases s) b (fun c => set_lo c lo)) (sw_default s))
          | (None, None) => Ok add
          end
        else Ok add
  end.
Fixpoint add_items (opt : bool) (t : ctype) (s : sw) (is : list (item label)) : outcome sw :=
  match is with
  | [] => Ok s
  | i :: r => do s' <- add_item opt t s i; add_items opt t s' r
  end.
Definition read_switch (opt : bool) (t : ctype) (is : list (item label)) : outcome sw := add_items opt t (mksw [] None) is.

(** codegen.c:2121-2146, after gen_expr(node->cond). *)
Definition is_default (s : sw) (l : label) : bool :=
  match sw_default s with Some d => label_eqb d l | None => false end.
Fixpoint gen_cases (z : size) (s : sw) (cs : list crange) : outcome (list instr) :=
  match cs with
  | [] => Ok []
  | c :: r =>
      match cr_label c with
      | None => gen_cases z s r
      | Some l =>
          if is_default s l then gen_cases z s r
          else if cr_hi c =? cr_lo c then
            do q <- gen_cases z s r;
            Ok (imm_cmp z z AX DX (cr_lo c) ++ [Jcc CcE l] ++ q)
          else if cr_lo c =? 0 then
            do q <- gen_cases z s r;
            Ok (imm_cmp z z AX DX (cr_hi c) ++ [Jcc CcBE l] ++ q)
          else
            do d <- long_of (cr_hi c - cr_lo c);
            do q <- gen_cases z s r;
            Ok ([Mov None (R z AX) (R z CX)] ++ imm_sub z CX DX (cr_lo c) ++ imm_cmp z z CX DX d ++ [Jcc CcBE l] ++ q)
      end
  end.
(** codegen.c:2148-2151. *)
Definition gen_switch (t : ctype) (s : sw) (brk : label) : outcome (list instr) :=
  do q <- gen_cases (if ct_size t =? 8 then S8 else S4) s (sw_cases s);
  Ok (q ++ match sw_default s with Some d => [Jmp d] | None => [] end ++ [Jmp brk]).
