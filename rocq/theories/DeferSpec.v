(** Statements with deferred actions, and what has to be pending at each point. *)
From Coq Require Import List Bool Arith.
Import ListNotations.

(** Something that has to be done when its scope is left: a deferred statement, the cleanup function of a variable,
    or giving back the storage of a variable length array. *)
Inductive entry := EDefer (n : nat) | EClean (n : nat) | EVla (v : nat).
(** Most recent first. *)
Definition stk := list entry.

(** A named label, or a case label ([true] for default). *)
Inductive slabel := LName (n : nat) | LCase (dflt : bool).
(** Conditions and loop clauses may declare variables (C23 and later). Expressions are numbered. A while loop is a for loop
    without init and increment. The last label list of a block is that before its closing brace. *)
Inductive stmt :=
| SExpr (n : nat)
| SReturn
| SGoto (l : nat)
| SJump (cont : bool) (name : option nat)
| SDefer (n : nat) (ls : list slabel) (b : stmt)
| SBlock (l : items)
| SIf (d : list entry) (ls : list slabel) (t : stmt)
| SIfElse (d : list entry) (ls : list slabel) (t : stmt) (ls' : list slabel) (e : stmt)
| SSwitch (d : list entry) (ls : list slabel) (b : stmt)
| SFor (init : list entry) (cond : option (list entry)) (inc : option nat) (ls : list slabel) (b : stmt)
| SDo (ls : list slabel) (b : stmt)
with items :=
| INil (ls : list slabel)
| ICons (ls : list slabel) (s : stmt) (r : items)
| IDecl (ls : list slabel) (init : bool) (es : list entry) (r : items).

(** Instructions, as far as they matter. [Reg] marks the point where a declaration or defer statement is reached (no code),
    [Run] the start of the code of an action, [SetSp v] restores the stack pointer to what it was after allocating [v]. *)
Inductive lab := LU (n : nat) | LElse (n : nat) | LEnd (n : nat) | LBegin (n : nat).
Inductive instr :=
| Act (n : nat) | Reg (e : entry) | Run (e : entry) | SetSp (v : option nat)
| Br (l : lab) | Jmp (l : lab) | Lab (l : lab) | Ret.

Definition lab_eqb (a b : lab) : bool :=
  match a, b with
  | LU x, LU y | LElse x, LElse y | LEnd x, LEnd y | LBegin x, LBegin y => Nat.eqb x y
  | _, _ => false
  end.
(** ** Running the code: what is pending *)
Fixpoint target (c : list instr) (l : lab) : option (list instr) :=
  match c with
  | [] => None
  | Lab l' :: r => if lab_eqb l' l then Some r else target r l
  | _ :: r => target r l
  end.
Fixpoint first_vla (s : stk) : option nat :=
  match s with [] => None | EVla v :: _ => Some v | _ :: r => first_vla r end.
Definition same_vla (a b : option nat) : bool :=
  match a, b with Some x, Some y => Nat.eqb x y | None, None => true | _, _ => false end.
(** Arrays allocated after [v] are gone; nothing else may be on top of them, and [v] must be there. *)
Fixpoint set_sp (v : option nat) (s : stk) : option stk :=
  if same_vla (first_vla s) v then Some s
  else match s with EVla _ :: r => set_sp v r | _ => None end.
(** The rest of the code and what is pending. *)
Definition mstate := (list instr * stk)%type.
Inductive step (code : list instr) : mstate -> mstate -> Prop :=
| st_act n r s : step code (Act n :: r, s) (r, s)
| st_reg e r s : step code (Reg e :: r, s) (r, e :: s)
| st_run e r s : step code (Run e :: r, e :: s) (r, s)
| st_sp v r s s' : set_sp v s = Some s' -> step code (SetSp v :: r, s) (r, s')
| st_br_no l r s : step code (Br l :: r, s) (r, s)
| st_br l r s t : target code l = Some t -> step code (Br l :: r, s) (t, s)
| st_jmp l r s t : target code l = Some t -> step code (Jmp l :: r, s) (t, s)
| st_lab l r s : step code (Lab l :: r, s) (r, s).
Inductive steps (code : list instr) : mstate -> mstate -> Prop :=
| ss_refl a : steps code a a
| ss_step a b c : step code a b -> steps code b c -> steps code a c.
(** The next instruction does what it should: an action that is run is the last one that was registered and has not been run,
    nothing is pending when the function returns, and every expression is evaluated with the actions pending that [A] says. *)
Definition fine (code : list instr) (A : list (nat * stk)) (st : mstate) : Prop :=
  let (r, s) := st in
  match r with
  | [] | Ret :: _ => s = []
  | Act n :: _ => In (n, s) A
  | Run e :: _ => exists s', s = e :: s'
  | SetSp v :: _ => exists s', set_sp v s = Some s'
  | Br l :: _ | Jmp l :: _ => exists t, target code l = Some t
  | _ => True
  end.
Definition labs (c : list instr) : list lab := flat_map (fun i => match i with Lab l => [l] | _ => [] end) c.

Section Live.
(** Whether storage of variable length arrays is given back at all. *)
Variable dz : bool.
Definition live (e : entry) : bool := match e with EVla _ => dz | _ => true end.
(** Declarations in sequence. *)
Definition push (es : list entry) (s : stk) : stk := rev (filter live es) ++ s.
Definition push_o (d : option (list entry)) (s : stk) : stk := match d with Some es => push es s | None => s end.
(** The actions pending at each expression, from the scope rules: those of the enclosing blocks that come before it. *)
Fixpoint act_s (x : stmt) (s : stk) : list (nat * stk) :=
  match x with
  | SExpr n => [(n, s)]
  | SReturn | SGoto _ | SJump _ _ => []
  | SDefer _ _ b => act_s b s
  | SBlock l => act_i l s
  | SIf d _ t => act_s t (push d s)
  | SIfElse d _ t _ e => act_s t (push d s) ++ act_s e (push d s)
  | SSwitch d _ b => act_s b (push d s)
  | SFor i c inc _ b => let s' := push_o c (push i s) in (match inc with Some n => [(n, s')] | None => [] end) ++ act_s b s'
  | SDo _ b => act_s b s
  end
with act_i (l : items) (s : stk) : list (nat * stk) :=
  match l with
  | INil _ => []
  | ICons _ x r => act_s x s ++ act_i r (match x with SDefer n _ _ => EDefer n :: s | _ => s end)
  | IDecl _ _ es r => act_i r (push es s)
  end.
(** Case labels only where nothing has been registered since the start of their switch ([w]). *)
Definition case_ok (w : option stk) (s : stk) (ls : list slabel) : Prop :=
  forall d, In (LCase d) ls -> w = Some s.
Fixpoint cases_s (w : option stk) (x : stmt) (s : stk) : Prop :=
  match x with
  | SExpr _ | SReturn | SGoto _ | SJump _ _ => True
  | SDefer _ ls b => case_ok w s ls /\ cases_s w b s
  | SBlock l => cases_i w l s
  | SIf d ls t => case_ok w (push d s) ls /\ cases_s w t (push d s)
  | SIfElse d ls t ls' e => (case_ok w (push d s) ls /\ cases_s w t (push d s)) /\ case_ok w (push d s) ls' /\ cases_s w e (push d s)
  | SSwitch d ls b => case_ok (Some (push d s)) (push d s) ls /\ cases_s (Some (push d s)) b (push d s)
  | SFor i c _ ls b => let s' := push_o c (push i s) in case_ok w s' ls /\ cases_s w b s'
  | SDo ls b => case_ok w s ls /\ cases_s w b s
  end
with cases_i (w : option stk) (l : items) (s : stk) : Prop :=
  match l with
  | INil ls => case_ok w s ls
  | ICons ls x r => case_ok w s ls /\ cases_s w x s /\ cases_i w r (match x with SDefer n _ _ => EDefer n :: s | _ => s end)
  | IDecl ls _ es r => case_ok w s ls /\ cases_i w r (push es s)
  end.
End Live.

(** No labels, loops or switches. *)
Fixpoint plain_s (x : stmt) : Prop :=
  match x with
  | SExpr _ | SReturn | SGoto _ | SJump _ _ => True
  | SDefer _ ls b => ls = [] /\ plain_s b
  | SBlock l => plain_i l
  | SIf _ ls t => ls = [] /\ plain_s t
  | SIfElse _ ls t ls' e => (ls = [] /\ plain_s t) /\ ls' = [] /\ plain_s e
  | SSwitch _ _ _ | SFor _ _ _ _ _ | SDo _ _ => False
  end
with plain_i (l : items) : Prop :=
  match l with
  | INil ls => ls = []
  | ICons ls x r => ls = [] /\ plain_s x /\ plain_i r
  | IDecl ls _ _ r => ls = [] /\ plain_i r
  end.
(** All deferred statements are plain. *)
Fixpoint defers_s (x : stmt) : Prop :=
  match x with
  | SExpr _ | SReturn | SGoto _ | SJump _ _ => True
  | SDefer _ ls b => ls = [] /\ plain_s b
  | SBlock l => defers_i l
  | SIf _ _ t => defers_s t
  | SIfElse _ _ t _ e => defers_s t /\ defers_s e
  | SSwitch _ _ b | SFor _ _ _ _ b | SDo _ b => defers_s b
  end
with defers_i (l : items) : Prop :=
  match l with
  | INil _ => True
  | ICons _ x r => defers_s x /\ defers_i r
  | IDecl _ _ _ r => defers_i r
  end.
(** The arrays. *)
Definition vla_e (es : list entry) : list nat := flat_map (fun e => match e with EVla v => [v] | _ => [] end) es.
Fixpoint vlas_s (x : stmt) : list nat :=
  match x with
  | SExpr _ | SReturn | SGoto _ | SJump _ _ => []
  | SDefer _ _ b => vlas_s b
  | SBlock l => vlas_i l
  | SIf d _ t => vla_e d ++ vlas_s t
  | SIfElse d _ t _ e => vla_e d ++ vlas_s t ++ vlas_s e
  | SSwitch d _ b => vla_e d ++ vlas_s b
  | SFor i c _ _ b => vla_e i ++ (match c with Some es => vla_e es | None => [] end) ++ vlas_s b
  | SDo _ b => vlas_s b
  end
with vlas_i (l : items) : list nat :=
  match l with
  | INil _ => []
  | ICons _ x r => vlas_s x ++ vlas_i r
  | IDecl _ _ es r => vla_e es ++ vlas_i r
  end.
