(** Model of deferred actions: parse.c 211-230, 512-521, 1445-1459, 1529-1545, 2319-2431 (labels), 2433-2475, 2492-2723, 4513-4538
    and codegen.c 1328-1363, 2067-2219, for statements. Expressions are opaque (no statement expressions), [goto *p] and asm are left out. *)
From Coq Require Import List Bool Arith.
From Verif Require Import Base DeferSpec.
Import ListNotations.

(** A node is represented by what gen_stmt emits for it: given the targets of the named labels (label and DeferStmt pointer) and
    the value of count(), the code and the new value of count(). *)
Definition key := (nat * entry)%type.
Definition genv := nat -> option (nat * list key).
Definition gen := genv -> nat -> outcome (list instr * nat).
Definition gseq (a b : gen) : gen := fun env c =>
  do x <- a env c; do y <- b env (snd x); Ok (fst x ++ fst y, snd y).
Definition gcode (l : list instr) : gen := fun _ c => Ok (l, c).

(** struct DeferStmt (slimcc.h 315-321). A pointer to one is the list of it and its successors; [d_id] is its identity, objects are not modified
    after creation, so pointers are equal if the identities are. *)
Inductive dkind := KDefer (n : nat) (g : gen) | KClean (n : nat) | KVla (v : nat).
Record dfr := mkd { d_id : nat; d_kind : dkind; d_vla : option nat }.
Definition ent (d : dfr) : entry := match d_kind d with KDefer n _ => EDefer n | KClean n => EClean n | KVla v => EVla v end.
Definition key_of (d : dfr) : key := (d_id d, ent d).
Definition ptr (l : list dfr) : list key := map key_of l.
Definition entry_eqb (a b : entry) : bool :=
  match a, b with EDefer x, EDefer y | EClean x, EClean y | EVla x, EVla y => Nat.eqb x y | _, _ => false end.
Fixpoint same_ptr (a b : list key) : bool :=
  match a, b with
  | [], [] => true
  | (i, e) :: r, (i', e') :: r' => Nat.eqb i i' && entry_eqb e e' && same_ptr r r'
  | _, _ => false
  end.

(** ** codegen.c *)
Section Gen.
Variable dz : bool.   (* current_fn->dealloc_vla *)
(** codegen.c:1328-1363 *)
Fixpoint gen_defr (l : list dfr) (en : list key) (env : genv) (c : nat) : outcome (list instr * nat) :=
  if same_ptr (ptr l) en then Ok ([], c)
  else
    match l with
    | [] => UB
    | d :: r =>
        match d_kind d with
        | KVla v =>
            if negb (same_ptr (ptr r) en) && match r with d2 :: _ => match d_kind d2 with KVla _ => true | _ => false end | [] => false end
            then gen_defr r en env c
            else
              do x <- gen_defr r en env c;
              Ok ((if dz then [SetSp (match r with d2 :: _ => d_vla d2 | [] => None end)] else []) ++ fst x, snd x)
        | KClean n =>
            do x <- gen_defr r en env c;
            Ok (Run (EClean n) :: fst x, snd x)
        | KDefer n g =>
            do y <- g env c;
            do x <- gen_defr r en env (snd y);
            Ok (Run (EDefer n) :: fst y ++ fst x, snd x)
        end
    end.
Definition defr_gen (st en : list dfr) : gen := fun env c => gen_defr st (ptr en) env c.
(** Reaching a declaration. *)
Definition regs (es : list entry) : list instr := map Reg (filter (live dz) es).

(** codegen.c:2074-2091 *)
Definition gen_if (d : list entry) (t : gen) (e : option gen) : gen := fun env c =>
  do x <- t env (S c);
  match e with
  | None => Ok (regs d ++ [Br (LElse c)] ++ fst x ++ [Lab (LElse c)], snd x)
  | Some g =>
      do y <- g env (snd x);
      Ok (regs d ++ [Br (LElse c)] ++ fst x ++ [Jmp (LEnd c); Lab (LElse c)] ++ fst y ++ [Lab (LEnd c)], snd y)
  end.
(** codegen.c:2092-2107 *)
Definition gen_for (init : list entry) (cond : option (list entry)) (inc : option nat) (brk cont : nat) (b : gen) (df : gen) : gen := fun env c =>
  do x <- b env (S c);
  do y <- df env (snd x);
  Ok (regs init ++ [Lab (LBegin c)] ++ (match cond with Some d => regs d ++ [Br (LU brk)] | None => [] end) ++ fst x ++
      [Lab (LU cont)] ++ (match inc with Some n => [Act n] | None => [] end) ++ fst y ++ [Jmp (LBegin c); Lab (LU brk)], snd y).
(** codegen.c:2108-2118 *)
Definition gen_do (brk cont : nat) (b : gen) : gen := fun env c =>
  do x <- b env (S c);
  Ok ([Lab (LBegin c)] ++ fst x ++ [Lab (LU cont); Br (LBegin c); Lab (LU brk)], snd x).
(** codegen.c:2119-2156; [cs] are the case labels, with [true] for default. *)
Definition gen_switch (d : list entry) (cs : list (bool * nat)) (brk : nat) (b : gen) : gen := fun env c =>
  do x <- b env c;
  let dl := find (fun p => fst p) cs in
  Ok (regs d ++ map (fun p => Br (LU (snd p))) (filter (fun p => negb (fst p) && negb (match dl with Some q => Nat.eqb (snd q) (snd p) | None => false end)) cs)
      ++ (match dl with Some p => [Jmp (LU (snd p))] | None => [] end) ++ [Jmp (LU brk)] ++ fst x ++ [Lab (LU brk)], snd x).
(** codegen.c:2161-2164 *)
Definition gen_goto (name : nat) (st : list dfr) : gen := fun env c =>
  match env name with
  | None => Abort
  | Some (u, en) => do x <- gen_defr st en env c; Ok (fst x ++ [Jmp (LU u)], snd x)
  end.
Definition gen_jump (u : nat) (st en : list dfr) : gen := gseq (defr_gen st en) (gcode [Jmp (LU u)]).
(** codegen.c:2172-2207, without the value. *)
Definition gen_return (st : list dfr) : gen := gseq (defr_gen st []) (gcode [Ret]).

(** ** parse.c *)
(** current_defr, the counter of new_unique_name, that of allocations, [labels] and [gotos]. *)
Record pst := mkp { p_cur : list dfr; p_un : nat; p_id : nat; p_labels : list (list nat * nat * list dfr); p_gotos : list (nat * list dfr) }.
Definition set_cur (l : list dfr) (s : pst) : pst := mkp l (p_un s) (p_id s) (p_labels s) (p_gotos s).
(** parse.c:512-521 and 1531-1532 *)
Definition new_defr (k : dkind) (s : pst) : pst :=
  let v := match k with KVla v => Some v | _ => match p_cur s with d :: _ => d_vla d | [] => None end end in
  mkp (mkd (p_id s) k v :: p_cur s) (p_un s) (S (p_id s)) (p_labels s) (p_gotos s).
(** Declarations (parse.c:1445-1459, 1529-1545). *)
Definition kind_of (e : entry) : dkind := match e with EVla v => KVla v | EClean n => KClean n | EDefer n => KDefer n (gcode []) end.
Definition declare (es : list entry) (s : pst) : pst := fold_left (fun s e => new_defr (kind_of e) s) es s.

(** struct JumpContext (parse.c 103-111) *)
Record jctx := mkj { j_switch : bool; j_names : list nat; j_brk : nat; j_cont : nat; j_end : list dfr }.
(** What a parsed statement is: whether its kind is ND_RETURN or ND_GOTO, its code, and the case labels in it that belong
    to the enclosing switch. *)
Record pnode := mkn { n_jump : bool; n_gen : gen; n_cases : list (bool * nat) }.

Definition names_of (ls : list slabel) : list nat := flat_map (fun l => match l with LName n => [n] | LCase _ => [] end) ls.
Definition cases_of (ls : list slabel) : list bool := flat_map (fun l => match l with LCase d => [d] | LName _ => [] end) ls.
(** parse.c:2319-2431, without the values of case labels. *)
Definition label_stmt (ls : list slabel) (ctx : list jctx) (s : pst) : outcome (list instr * list (bool * nat) * pst) :=
  match ls with
  | [] => Ok ([], [], s)
  | _ =>
      let u := p_un s in
      let s' := mkp (p_cur s) (S u) (p_id s) ((names_of ls, u, p_cur s) :: p_labels s) (p_gotos s) in
      match cases_of ls with
      | [] => Ok ([Lab (LU u)], [], s')
      | cs =>
          if existsb j_switch ctx then
            match ctx with
            | [] => Abort
            | j :: _ => if same_ptr (ptr (j_end j)) (ptr (p_cur s)) then Ok ([Lab (LU u)], map (fun d => (d, u)) cs, s') else Abort
            end
          else Abort
      end
  end.
(** parse.c:2459-2475 *)
Fixpoint resolve_labeled_jump (ctx : list jctx) (cont : bool) (name : option nat) : outcome jctx :=
  match ctx with
  | [] => Abort
  | j :: r =>
      if cont && j_switch j then resolve_labeled_jump r cont name
      else match name with
           | None => Ok j
           | Some n => if existsb (Nat.eqb n) (j_names j) then Ok j else resolve_labeled_jump r cont name
           end
  end.
(** parse.c:215-230 for a statement node with more nodes after it ([next]) or not. *)
Definition leave_block_scope (d0 : list dfr) (n : pnode) (next : bool) (s : pst) : pnode * pst :=
  let cur := if n_jump n then d0 else p_cur s in
  if same_ptr (ptr d0) (ptr cur) && negb next then (n, set_cur cur s)
  else (mkn false (gseq (n_gen n) (defr_gen cur d0)) (n_cases n), set_cur d0 s).
(** parse.c:2433-2444; a compound statement comes out the same either way. *)
Definition secondary (p : list nat -> pst -> outcome (pnode * pst)) (ls : list slabel) (ctx : list jctx) (s : pst) : outcome (pnode * pst) :=
  do x <- label_stmt ls ctx s;
  let '(code, cs, s1) := x in
  do y <- p (names_of ls) s1;
  let (n, s2) := y in
  Ok (match ls with
      | [] => leave_block_scope (p_cur s) n false s2
      | _ => leave_block_scope (p_cur s) (mkn false (gseq (gcode code) (n_gen n)) (cs ++ n_cases n)) true s2
      end).
Definition fresh2 (s : pst) : pst := mkp (p_cur s) (S (S (p_un s))) (p_id s) (p_labels s) (p_gotos s).
Definition fresh1 (s : pst) : pst := mkp (p_cur s) (S (p_un s)) (p_id s) (p_labels s) (p_gotos s).

(** parse.c:2660-2723 around the loop over the statements, which is [p]. *)
Definition compound (p : pst -> outcome (pnode * pst)) (s : pst) : outcome (pnode * pst) :=
  do y <- p s;
  let (n, s1) := y in
  let cur := if n_jump n then p_cur s else p_cur s1 in
  Ok (mkn false (gseq (n_gen n) (defr_gen cur (p_cur s))) (n_cases n), set_cur (p_cur s) s1).

(** parse.c:2492-2657 and 2660-2723. [names] are the labels before the statement; [last] is whether the last node of the block so far is a jump. *)
Fixpoint parse_s (x : stmt) (ctx : list jctx) (names : list nat) (s : pst) : outcome (pnode * pst) :=
  match x with
  | SExpr n => Ok (mkn false (gcode [Act n]) [], s)
  | SReturn => Ok (mkn true (gen_return (p_cur s)) [], s)
  | SGoto l => Ok (mkn true (gen_goto l (p_cur s)) [], mkp (p_cur s) (p_un s) (p_id s) (p_labels s) ((l, p_cur s) :: p_gotos s))
  | SJump cont name =>
      do j <- resolve_labeled_jump ctx cont name;
      Ok (mkn true (gen_jump (if cont then j_cont j else j_brk j) (p_cur s) (j_end j)) [], s)
  | SDefer n ls b =>
      do y <- secondary (parse_s b ctx) ls ctx s;
      let (nd, s1) := y in
      Ok (mkn false (gcode [Reg (EDefer n)]) (n_cases nd), new_defr (KDefer n (n_gen nd)) s1)
  | SBlock l => compound (parse_i l ctx false) s
  | SIf d ls t =>
      do y <- secondary (parse_s t ctx) ls ctx (declare d s);
      let (nt, s1) := y in
      Ok (leave_block_scope (p_cur s) (mkn false (gen_if d (n_gen nt) None) (n_cases nt)) false s1)
  | SIfElse d ls t ls' e =>
      do y <- secondary (parse_s t ctx) ls ctx (declare d s);
      let (nt, s1) := y in
      do z <- secondary (parse_s e ctx) ls' ctx s1;
      let (ne, s2) := z in
      Ok (leave_block_scope (p_cur s) (mkn false (gen_if d (n_gen nt) (Some (n_gen ne))) (n_cases nt ++ n_cases ne)) false s2)
  | SSwitch d ls b =>
      let s1 := declare d s in
      let j := mkj true names (p_un s1) 0 (p_cur s1) in
      do y <- secondary (parse_s b (j :: ctx)) ls (j :: ctx) (fresh1 s1);
      let (nb, s2) := y in
      if Nat.leb (length (filter (fun p => fst p) (n_cases nb))) 1
      then Ok (leave_block_scope (p_cur s) (mkn false (gen_switch d (n_cases nb) (p_un s1) (n_gen nb)) []) false s2)
      else Abort
  | SFor init cond inc ls b =>
      let s1 := declare init s in
      let s2 := match cond with Some d => declare d s1 | None => s1 end in
      let j := mkj false names (p_un s2) (S (p_un s2)) (p_cur s2) in
      do y <- secondary (parse_s b (j :: ctx)) ls (j :: ctx) (fresh2 s2);
      let (nb, s3) := y in
      let df := match cond with Some _ => defr_gen (p_cur s2) (p_cur s1) | None => defr_gen [] [] end in
      Ok (leave_block_scope (p_cur s) (mkn false (gen_for init cond inc (p_un s2) (S (p_un s2)) (n_gen nb) df) (n_cases nb)) false s3)
  | SDo ls b =>
      let j := mkj false names (p_un s) (S (p_un s)) (p_cur s) in
      do y <- secondary (parse_s b (j :: ctx)) ls (j :: ctx) (fresh2 s);
      let (nb, s1) := y in
      Ok (mkn false (gen_do (p_un s) (S (p_un s)) (n_gen nb)) (n_cases nb), s1)
  end
with parse_i (l : items) (ctx : list jctx) (last : bool) (s : pst) : outcome (pnode * pst) :=
  match l with
  | INil ls =>
      do x <- label_stmt ls ctx s;
      let '(code, cs, s1) := x in
      Ok (mkn (match ls with [] => last | _ => false end) (gcode code) cs, s1)
  | ICons ls x r =>
      do a <- label_stmt ls ctx s;
      let '(code, cs, s1) := a in
      do y <- parse_s x ctx (names_of ls) s1;
      let (n, s2) := y in
      do z <- parse_i r ctx (n_jump n) s2;
      let (nr, s3) := z in
      Ok (mkn (n_jump nr) (gseq (gcode code) (gseq (n_gen n) (n_gen nr))) (cs ++ n_cases n ++ n_cases nr), s3)
  | IDecl ls init es r =>
      do a <- label_stmt ls ctx s;
      let '(code, cs, s1) := a in
      let last' := match ls with [] => last | _ => false end in
      do z <- parse_i r ctx (if init then false else last') (declare es s1);
      let (nr, s2) := z in
      Ok (mkn (n_jump nr) (gseq (gcode (code ++ regs es)) (n_gen nr)) (cs ++ n_cases nr), s2)
  end.

(** parse.c:4513-4538 *)
Definition find_label (ls : list (list nat * nat * list dfr)) (name : nat) : option (nat * list key) :=
  match find (fun p => existsb (Nat.eqb name) (fst (fst p))) ls with
  | Some p => Some (snd (fst p), ptr (snd p))
  | None => None
  end.
Fixpoint on_chain (l : list dfr) (en : list key) : bool :=
  same_ptr (ptr l) en || match l with [] => false | _ :: r => on_chain r en end.
Definition goto_ok (ls : list (list nat * nat * list dfr)) (g : nat * list dfr) : bool :=
  match find_label ls (fst g) with
  | None => false
  | Some (_, []) => true
  | Some (_, en) => on_chain (snd g) en
  end.
(** parse.c:4588-4629: the body of a function, with [u] and [c] for the counters so far. *)
Definition func (body : items) (u c : nat) : outcome (list instr) :=
  do y <- compound (parse_i body [] false) (mkp [] u 0 [] []);
  let (n, s) := y in
  if forallb (goto_ok (p_labels s)) (p_gotos s)
  then do x <- n_gen n (find_label (p_labels s)) c; Ok (fst x)
  else Abort.
End Gen.
