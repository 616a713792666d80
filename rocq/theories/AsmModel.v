(** Extended asm statements: /repo/codegen.c 3001-3359 (asm_fill_ops, ident_reg, asm_clobbers, asm_get_use, asm_set_use,
    asm_constraint, asm_assign_oprands, acquire_gp, prepare_inline_asm) and 3383-3597, 3733-3825 (the code around the
    instructions). Operands, outputs first, are numbered from 0 as in asm_ops. Arguments are not of array or function
    type. Numbers in constraints are below 2^31. The code for x87 operands, asm goto and the template are not modelled
    here; is_clobbered_x87 is only used for that code. *)
From Coq Require Import Ascii String ZArith List Bool.
From Verif Require Import AsmSpec.
Import ListNotations.
Local Open Scope string_scope.
Local Open Scope nat_scope.
Local Open Scope list_scope.

(** [UB]: the compiler writes outside an array. *)
Inductive res (A : Type) := Ok (a : A) | Err | UB.
Arguments Ok {A}. Arguments Err {A}. Arguments UB {A}.
Definition bind {A B} (x : res A) (f : A -> res B) : res B := match x with Ok a => f a | Err => Err | UB => UB end.
Notation "'do' X <- A ; B" := (bind A (fun X => B)) (at level 200, X pattern, A at level 100, B at level 200).

(** slimcc.h 323-355. [KNull]: ASMOP_NULL. *)
Inductive kind := KNull | KNum (v : Z) | KSym | KMem | KReg | KFlag (f : string).
Record op := Op { o_src : operand; o_kind : kind; o_match : option nat; o_reg : nat; o_mem : bool; o_gp : bool; o_fp : bool; o_x87 : bool;
                  o_early : bool; o_hb : bool; o_leg : bool; o_free : bool }.
Definition new_op (o : operand) : op := Op o KNull None 0 false false false false false false false false.
(** asm_use: the registers for which in and out are set. *)
Record use := Use { u_in : list nat; u_out : list nat }.
Definition mem (r : nat) (l : list nat) : bool := existsb (Nat.eqb r) l.
Record state := State { ops : list op; used : use }.
Fixpoint set_nth {A} (i : nat) (a : A) (l : list A) : list A :=
  match l, i with
  | [], _ => []
  | _ :: l, O => a :: l
  | b :: l, S i => b :: set_nth i a l
  end.
Definition REG_END := 41.

(** * Names of registers *)
(** codegen.c 57-76 and 3043-3046: [regs] without the percent signs, and the high bytes. *)
Definition regs : list (nat * list string) :=
  [(SP, ["spl"; "sp"; "esp"; "rsp"]); (BP, ["bpl"; "bp"; "ebp"; "rbp"]); (AX, ["al"; "ax"; "eax"; "rax"]); (BX, ["bl"; "bx"; "ebx"; "rbx"]);
   (CX, ["cl"; "cx"; "ecx"; "rcx"]); (DX, ["dl"; "dx"; "edx"; "rdx"]); (SI, ["sil"; "si"; "esi"; "rsi"]); (DI, ["dil"; "di"; "edi"; "rdi"]);
   (6, ["r8b"; "r8w"; "r8d"; "r8"]); (7, ["r9b"; "r9w"; "r9d"; "r9"]); (8, ["r10b"; "r10w"; "r10d"; "r10"]); (9, ["r11b"; "r11w"; "r11d"; "r11"]);
   (10, ["r12b"; "r12w"; "r12d"; "r12"]); (11, ["r13b"; "r13w"; "r13d"; "r13"]); (12, ["r14b"; "r14w"; "r14d"; "r14"]);
   (13, ["r15b"; "r15w"; "r15d"; "r15"]); (AX, ["ah"]); (BX, ["bh"]); (CX, ["ch"]); (DX, ["dh"])].
Definition ident_gp_reg (s : string) : nat :=
  match find (fun e => existsb (String.eqb s) (snd e)) regs with Some (r, _) => r | None => 0 end.
(** strtoul on decimal digits. *)
Fixpoint strtoul (n : nat) (s : string) : nat :=
  match s with
  | String a s' => match digit a with Some d => strtoul (10 * n + d) s' | None => n end
  | EmptyString => n
  end.
Fixpoint skip_percent (s : string) : string :=
  match s with String "%" s' => skip_percent s' | _ => s end.
(** codegen.c 3050-3070 *)
Definition ident_reg (s : string) : res nat :=
  let s := skip_percent s in
  match ident_gp_reg s with
  | S r => Ok (S r)
  | O =>
      match s with
      | String "x" (String "m" (String "m" n)) | String "y" (String "m" (String "m" n)) | String "z" (String "m" (String "m" n)) => Ok (XMM0 + strtoul 0 n)
      | String "s" (String "t" (String "(" n)) => Ok (ST0 + Nat.min (strtoul 0 n) 7)
      | String "s" (String "t" _) => Ok ST0
      | _ => Err
      end
  end.
(** codegen.c 3072-3096; the tokens of the list by their contents. *)
Fixpoint asm_clobbers (l : list string) (u : use) : res use :=
  match l with
  | [] => Ok u
  | s :: l =>
      if String.eqb s "cc" || String.eqb s "memory" then asm_clobbers l u
      else
        do r <- ident_reg s;
        if Nat.eqb r SP || st r then asm_clobbers l u
        else if r <? REG_END then asm_clobbers l (Use (r :: u_in u) (r :: u_out u))
        else UB
  end.

(** * Constraints *)
(** codegen.c 3098-3100 *)
Definition has_matching (l : list op) (a : op) : bool :=
  match o_match a with
  | Some j => match nth_error l j with Some b => match o_kind b with KNull => true | _ => false end | None => false end
  | None => false
  end.
Definition is_kreg (k : kind) : bool := match k with KReg => true | _ => false end.
Definition out_only (l : list op) (a : op) : bool :=
  starts "=" (o_src a) && is_kreg (o_kind a) && negb (o_early a) && negb (has_matching l a).
(** codegen.c 3102-3111 *)
Definition asm_get_use (s : state) (a : op) (r : nat) : bool :=
  if input (o_src a) then mem r (u_in (used s))
  else if out_only (ops s) a then mem r (u_out (used s))
  else mem r (u_in (used s)) || mem r (u_out (used s)).
Definition place (a : op) (k : kind) (r : nat) : op :=
  Op (o_src a) k (o_match a) r (o_mem a) (o_gp a) (o_fp a) (o_x87 a) (o_early a) (o_hb a) (o_leg a) (o_free a).
(** codegen.c 3113-3129; operand [i] has just become [a]. *)
Definition asm_set_use (s : state) (i : nat) (a : op) : res state :=
  let l := set_nth i a (ops s) in
  let u := used s in
  let r := o_reg a in
  if negb (r <? REG_END) then UB
  else if input (o_src a) then Ok (State l (Use (r :: u_in u) (u_out u)))
  else if out_only l a then Ok (State l (Use (u_in u) (r :: u_out u)))
  else
    let u := Use (r :: u_in u) (r :: u_out u) in
    if has_matching l a then
      match o_match a with
      | Some j => match nth_error l j with Some b => Ok (State (set_nth j (place b KReg r) l) u) | None => Ok (State l u) end
      | None => Ok (State l u)
      end
    else Ok (State l u).
(** The flags of codegen.c 3139-3189. *)
Record flags := Flags { f_early : bool; f_mem : bool; f_gp : bool; f_hb : bool; f_leg : bool; f_free : bool; f_num : bool; f_sym : bool;
                        f_fp : bool; f_x87 : bool; f_reg : nat; f_idx : option nat }.
Definition no_flags : flags := Flags false false false false false false false false false false 0 None.
Definition fixed_reg (f : flags) (r : nat) : res flags :=
  if Nat.eqb (f_reg f) 0 || Nat.eqb (f_reg f) r
  then Ok (Flags (f_early f) (f_mem f) (f_gp f) (f_hb f) (f_leg f) (f_free f) (f_num f) (f_sym f) (f_fp f) (f_x87 f) r (f_idx f))
  else Err.
(** One letter; [dig]: the one before is a digit. *)
Definition letter1 (f : flags) (dig : bool) (a : ascii) : res flags :=
  let '(Flags e m g h l r n s x t rg i) := f in
  match a with
  | "=" | "+" => Ok f
  | "&" => Ok (Flags true m g h l r n s x t rg i)
  | "m" | "o" => Ok (Flags e true g h l r n s x t rg i)
  | "r" | "q" => Ok (Flags e m true h l r n s x t rg i)
  | "Q" => Ok (Flags e m g true l r n s x t rg i)
  | "R" => Ok (Flags e m g h true r n s x t rg i)
  | "U" => Ok (Flags e m g h l true n s x t rg i)
  | "n" | "I" | "J" | "K" | "L" | "M" | "N" | "O" | "P" => Ok (Flags e m g h l r true s x t rg i)
  | "i" => Ok (Flags e m g h l r true true x t rg i)
  | "x" | "v" => Ok (Flags e m g h l r n s true t rg i)
  | "f" => Ok (Flags e m g h l r n s x true rg i)
  | "X" => Ok (Flags e true true h l r true s true t rg i)
  | "g" => Ok (Flags e true true h l r true s x t rg i)
  | "a" => fixed_reg f AX | "b" => fixed_reg f BX | "c" => fixed_reg f CX | "d" => fixed_reg f DX
  | "S" => fixed_reg f SI | "D" => fixed_reg f DI | "t" => fixed_reg f ST0 | "u" => fixed_reg f (ST0 + 1)
  | _ =>
      match digit a with
      | Some d => Ok (Flags e m g h l r n s x t rg (Some match i with Some k => if dig then 10 * k + d else d | None => d end))
      | None => Err
      end
  end%char.
Fixpoint letters (f : flags) (dig : bool) (l : list ascii) : res flags :=
  match l with
  | [] => Ok f
  | a :: l => do f <- letter1 f dig a; letters f (match digit a with Some _ => true | None => false end) l
  end.
Definition flag_cc (s : string) : option string :=
  match s with String "=" (String "@" (String "c" (String "c" f))) => Some f | _ => None end.
(** codegen.c 3137-3231, for operand [i]. *)
Definition asm_constraint (s : state) (i : nat) : res state :=
  match nth_error (ops s) i with
  | None => Err
  | Some a =>
      let ag := snd (o_src a) in
      match flag_cc (fst (o_src a)) with
      | Some f => Ok (State (set_nth i (place a (KFlag f) (o_reg a)) (ops s)) (used s))
      | None =>
          do f <- letters no_flags false (con (o_src a));
          let b := Op (o_src a) (o_kind a) (o_match a) (o_reg a) (f_mem f) (f_gp f) (f_fp f) (f_x87 f) (f_early f) (f_hb f) (f_leg f) (f_free f) in
          let done k := Ok (State (set_nth i (place b k (o_reg b)) (ops s)) (used s)) in
          match (if f_num f && a_int ag then a_const ag else None) with
          | Some v => done (KNum v)
          | None =>
              if f_sym f then done KSym
              else if f_mem f && a_memop ag then done KMem
              else
                do f <- match a_var ag with
                        | None => Ok f
                        | Some n =>
                            do r <- ident_reg n;
                            if (gp r && negb (f_gp f)) || (xmm r && negb (f_fp f)) || (st r && negb (f_x87 f)) then Err else fixed_reg f r
                        end;
                if negb (Nat.eqb (f_reg f) 0) then asm_set_use s i (place b KReg (f_reg f))
                else
                  let l := set_nth i b (ops s) in
                  match f_idx f with
                  | None => Ok (State l (used s))
                  | Some k =>
                      match nth_error l k with
                      | None => Err
                      | Some c => Ok (State (set_nth k (Op (o_src c) (o_kind c) (Some i) (o_reg c) (o_mem c) (o_gp c) (o_fp c) (o_x87 c) (o_early c) (o_hb c) (o_leg c) (o_free c)) l) (used s))
                      end
                  end
          end
      end
  end.
Fixpoint asm_constraints (l : list nat) (s : state) : res state :=
  match l with [] => Ok s | i :: l => do s <- asm_constraint s i; asm_constraints l s end.

(** * Registers *)
Definition range (a b : nat) : list nat := seq a (b + 1 - a).
(** codegen.c 3233-3241 and the loop of 3248-3255 *)
Definition find_free (s : state) (a : op) (l : list nat) : option nat := find (fun r => negb (asm_get_use s a r)) l.
Fixpoint asm_assign_oprands2 (l : list nat) (p : op -> bool) (is : list nat) (s : state) : res state :=
  match is with
  | [] => Ok s
  | i :: is =>
      match nth_error (ops s) i with
      | None => Err
      | Some a =>
          do s <- match o_kind a with
                  | KNull => if p a then match find_free s a l with Some r => asm_set_use s i (place a KReg r) | None => Ok s end else Ok s
                  | _ => Ok s
                  end;
          asm_assign_oprands2 l p is s
      end
  end.
Definition highbyte : list nat := [AX; CX; DX; BX].
Definition legacy : list nat := [AX; CX; DX; SI; DI; BX; BP].
Definition free : list nat := [AX; CX; DX; SI; DI; R8; 7; 8; R11].
(** codegen.c 3269-3286 *)
Definition try_reg (b : bool) (s : state) (a : op) (l : list nat) : option nat := if b then find_free s a l else None.
Definition assign1 (s : state) (i : nat) (a : op) : res state :=
  match try_reg (o_fp a) s a (range XMM0 (XMM0 + 15)) with
  | Some r => asm_set_use s i (place a KReg r)
  | None =>
      match try_reg (o_x87 a) s a (range ST0 (ST0 + 7)) with
      | Some r => asm_set_use s i (place a KReg r)
      | None =>
          match try_reg (o_gp a) s a (range AX R15) with
          | Some r => asm_set_use s i (place a KReg r)
          | None =>
              match try_reg (o_mem a) s a (range AX R15) with
              | Some r => asm_set_use s i (place a KMem r)
              | None => Err
              end
          end
      end
  end.
Fixpoint assign_rest (is : list nat) (s : state) : res state :=
  match is with
  | [] => Ok s
  | i :: is =>
      match nth_error (ops s) i with
      | None => Err
      | Some a => do s <- match o_kind a with KNull => assign1 s i a | _ => Ok s end; assign_rest is s
      end
  end.
(** codegen.c 3259-3287 *)
Definition asm_assign_oprands (s : state) : res state :=
  let is := seq 0 (length (ops s)) in
  do s <- asm_assign_oprands2 highbyte o_hb is s;
  do s <- asm_assign_oprands2 legacy o_leg is s;
  do s <- asm_assign_oprands2 free o_free is s;
  assign_rest is s.
(** codegen.c 3289-3299 *)
Definition acquire_gp (l : list nat) : res nat := match find (fun r => negb (mem r l)) (range AX R15) with Some r => Ok r | None => Err end.

(** * prepare_inline_asm *)
(** The fields alt_frame_ptr, alt_frame_ptr2 and output_tmp_gp (0: none) and clobber_mask. *)
Record plan := Plan { p_ops : list op; p_alt1 : nat; p_alt2 : nat; p_tmp : nat; p_mask : list nat }.
(** codegen.c 3310-3341 *)
Definition prepare (outs ins : list operand) (clobbers : list string) : res plan :=
  let n := length outs in
  do u <- asm_clobbers clobbers (Use [] []);
  do s <- asm_constraints (seq n (length ins)) (State (map new_op (outs ++ ins)) u);
  do s <- asm_constraints (seq 0 n) s;
  do s <- asm_assign_oprands s;
  let both u := u_in u ++ u_out u in
  let u := used s in
  do (alt1, u) <- (if mem BP (both u) then do r <- acquire_gp (both u); Ok (r, Use (r :: u_in u) (r :: u_out u)) else Ok (0, u));
  do (alt2, u) <- (if mem BX (both u) then do r <- acquire_gp (both u); Ok (r, Use (r :: u_in u) (r :: u_out u)) else Ok (0, u));
  do (tmp, u) <- match outs with
                 | [] => Ok (0, u)
                 | _ => if negb (Nat.eqb alt1 0) && negb (mem BP (u_out u)) then Ok (BP, u)
                        else if negb (Nat.eqb alt2 0) && negb (mem BX (u_out u)) then Ok (BX, u)
                        else do r <- acquire_gp (u_out u); Ok (r, Use (u_in u) (r :: u_out u))
                 end;
  Ok (Plan (ops s) alt1 alt2 tmp (filter (fun r => mem r (both u)) (range R12 BP))).
(** The place an operand got. *)
Definition loc_of (a : op) : loc :=
  match o_kind a with
  | KNum v => Imm v
  | KSym | KNull => Sym
  | KMem => Mem (o_reg a)
  | KReg => Reg (o_reg a)
  | KFlag f => Flag f
  end.
Definition places (p : plan) : list loc := map loc_of (p_ops p).
