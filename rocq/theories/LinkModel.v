(** Declarations at file scope and with linkage in blocks: /repo/parse.c 464-486 (new_var, new_gvar),
    1461-1475 (function declarations in blocks), 2689-2690, 4540-4549 (find_func), 4563-4585
    (func_prototype), 4587-4591 and 4627 (func_definition), 4631-4703 (global_declaration), and the
    symbols /repo/codegen.c 3874-3975, 4256-4268 writes. Scopes are lists of names (hash maps: C01, lookup:
    C36); a type is what LinkSpec.v calls so. Not modelled: attributes (alias, section, visibility, weak,
    gnu_inline, cleanup), asm names, -femulated-tls, alignment specifiers, the types of functions, the
    checks of duplicate local names; whether a static inline function is written is C33. *)
From Coq Require Import Ascii String ZArith List Bool.
From Verif Require Import LinkSpec.
Import ListNotations.
Local Open Scope string_scope.
Local Open Scope Z_scope.
Local Open Scope list_scope.

Inductive res (A : Type) := Ok (a : A) | Err.
Arguments Ok {A}. Arguments Err {A}.
Definition bind {A B} (x : res A) (f : A -> res B) : res B := match x with Ok a => f a | Err => Err end.
Notation "'do' X <- A ; B" := (bind A (fun X => B)) (at level 200, X name, A at level 100, B at level 200).

(** slimcc.h [Obj] of a global: the type is [None] for a function. *)
Record obj := Obj { o_name : string; o_ty : option ty; o_align : Z; o_def : bool; o_static : bool; o_tent : bool; o_tls : bool; o_init : option Z }.
(** slimcc.h [VarScope]: a global by its place in [globals], a local, or no variable. *)
Inductive vsc := VGlobal (i : nat) | VLocal (k : Z) | VNone.
Definition scopes := list (list (string * vsc)).
Record state := State { globals : list obj; scope : scopes; recs : table }.

(** type.c 63-68, 254-289: [ty->size] and [ty->align]; a structure not completed yet has -1 and 1. *)
Fixpoint tsize (r : table) (t : ty) : Z :=
  match t with
  | Base s _ => s
  | Rec i => match rec_of r i with Some (s, _) => s | None => -1 end
  | Arr n t => tsize r t * match n with Some n => n | None => -1 end
  end.
Fixpoint talign (r : table) (t : ty) : Z :=
  match t with
  | Base _ a => a
  | Rec i => match rec_of r i with Some (_, a) => a | None => 1 end
  | Arr _ t => talign r t
  end.

(** parse.c 236-243 *)
Fixpoint find_var (sc : scopes) (x : string) : option vsc :=
  match sc with
  | [] => None
  | f :: sc => match assoc x f with Some v => Some v | None => find_var sc x end
  end.
(** parse.c 410-414 *)
Definition push_scope (x : string) (v : vsc) (sc : scopes) : scopes :=
  match sc with [] => [] | f :: sc => ((x, v) :: f) :: sc end.
(** parse.c 464-471, 481-486: the new global is [i]. *)
Definition new_gvar (x : string) (t : option ty) (s : state) : state :=
  State (globals s ++ [Obj x t (match t with Some t => talign (recs s) t | None => 1 end) false false false false None])
    (push_scope x (VGlobal (length (globals s))) (scope s)) (recs s).
Fixpoint update {A} (l : list A) (i : nat) (f : A -> A) : list A :=
  match l, i with
  | [], _ => []
  | a :: l, O => f a :: l
  | a :: l, S i => a :: update l i f
  end.
Definition change (i : nat) (f : obj -> obj) (s : state) : state := State (update (globals s) i f) (scope s) (recs s).
(** parse.c 4540-4549 *)
Definition find_func (x : string) (s : state) : option nat :=
  match assoc x (last (scope s) []) with
  | Some (VGlobal i) => match nth_error (globals s) i with
                        | Some o => match o_ty o with None => Some i | Some _ => None end
                        | None => None
                        end
  | _ => None
  end.
(** parse.c 4563-4585; the check of prototypes is left out. *)
Definition func_prototype (x : string) (st ex il : bool) (s : state) : res (nat * state) :=
  match find_func x s with
  | None =>
      let s1 := new_gvar x None s in
      let i := length (globals s) in
      Ok (i, if st || (il && negb ex)
             then change i (fun o => Obj (o_name o) (o_ty o) (o_align o) (o_def o) true (o_tent o) (o_tls o) (o_init o)) s1
             else s1)
  | Some i =>
      match nth_error (globals s) i with
      | Some o => if negb (o_static o) && st then Err else Ok (i, s)
      | None => Err
      end
  end.
(** parse.c 4664-4701: an object declared with storage class [c]. *)
Definition declare (x : string) (c : sclass) (tls : bool) (t : ty) (init : option (Z * ty)) (s : state) : res state :=
  let extern := match c with SExtern => true | _ => false end in
  let is_definition := negb extern || match init with Some _ => true | None => false end in
  let define (i : nat) (s : state) : res state :=
    let st := match c with SStatic | SConstexpr => true | _ => false end in
    match c, init with
    | SConstexpr, None => Err
    | _, _ =>
        Ok (change i (fun o =>
              Obj (o_name o) (Some (match init with Some (_, u) => u | None => t end)) (o_align o) is_definition st
                (match init with Some _ => false | None => is_definition end) tls
                (match init with Some (d, _) => Some d | None => o_init o end)) s)
    end in
  match find_var (scope s) x with
  | Some (VGlobal i) =>
      match nth_error (globals s) i with
      | Some o =>
          if negb is_definition then Ok s
          else if o_def o && negb (o_tent o) then match init with Some _ => Err | None => Ok s end
          else define i s
      | None => Err
      end
  | Some (VLocal _) => if negb is_definition then Ok s else Err
  | _ => define (length (globals s)) (new_gvar x (Some t) s)
  end.

(** What a name in an expression stands for: the symbol, with the type of the object; a local. *)
Inductive ref := RSym (x : string) (t : option ty) | RLocal (k : Z) | ROther.
(** primary, parse.c 4400-4480: a name; undeclared ones are errors. *)
Definition name_ref (x : string) (s : state) : res ref :=
  match find_var (scope s) x with
  | Some (VGlobal i) => match nth_error (globals s) i with Some o => Ok (RSym (o_name o) (o_ty o)) | None => Err end
  | Some (VLocal k) => Ok (RLocal k)
  | Some VNone => Ok ROther
  | None => Err
  end.
Definition enter (s : state) : state := State (globals s) ([] :: scope s) (recs s).
Definition leave (s : state) : state := State (globals s) (tl (scope s)) (recs s).

(** compound_stmt, parse.c 2660-2723, for the items of LinkSpec.v. *)
Fixpoint block_item (b : bitem) (s : state) {struct b} : res (state * list (Z * ref)) :=
  match b with
  | BUse k x => do r <- name_ref x s; Ok (s, [(k, r)])
  | BLocal k x => Ok (State (globals s) (push_scope x (VLocal k) (scope s)) (recs s), [])
  | BOther x => Ok (State (globals s) (push_scope x VNone (scope s)) (recs s), [])
  | BExtern x tls t => do s <- declare x SExtern tls t None s; Ok (s, [])
  | BFun x ex il => do r <- func_prototype x false ex il s; Ok (snd r, [])
  | BBlock m =>
      do r <- (fix go (l : list bitem) (s : state) {struct l} : res (state * list (Z * ref)) :=
                 match l with
                 | [] => Ok (s, [])
                 | b :: l => do r1 <- block_item b s; do r2 <- go l (fst r1); Ok (fst r2, snd r1 ++ snd r2)
                 end) m (enter s);
      Ok (leave (fst r), snd r)
  end.
Fixpoint block_items (l : list bitem) (s : state) : res (state * list (Z * ref)) :=
  match l with
  | [] => Ok (s, [])
  | b :: l => do r1 <- block_item b s; do r2 <- block_items l (fst r1); Ok (fst r2, snd r1 ++ snd r2)
  end.
(** parse.c 4587-4629: [is_definition] is set before the body is parsed. *)
Definition func_definition (i : nat) (l : list bitem) (s : state) : res (state * list (Z * ref)) :=
  match nth_error (globals s) i with
  | Some o =>
      if o_def o then Err
      else
        let s := change i (fun o => Obj (o_name o) (o_ty o) (o_align o) true (o_static o) (o_tent o) (o_tls o) (o_init o)) s in
        do r <- block_items l (enter s); Ok (leave (fst r), snd r)
  | None => Err
  end.
(** parse, parse.c 4725-4771; the structure types of 3763-3823. *)
Definition unit_item (i : item) (s : state) : res (state * list (Z * ref)) :=
  match i with
  | IRec i z a => Ok (State (globals s) (scope s) ((i, (z, a)) :: recs s), [])
  | IVar x c tls t init => do s <- declare x c tls t init s; Ok (s, [])
  | IFun x st ex il body =>
      do r <- func_prototype x st ex il s;
      match body with
      | Some l => func_definition (fst r) l (snd r)
      | None => Ok (snd r, [])
      end
  end.
Fixpoint unit_items (p : list item) (s : state) : res (state * list (Z * ref)) :=
  match p with
  | [] => Ok (s, [])
  | i :: p => do r1 <- unit_item i s; do r2 <- unit_items p (fst r1); Ok (fst r2, snd r1 ++ snd r2)
  end.
Definition parse_unit (p : list item) : res (state * list (Z * ref)) := unit_items p (State [] [[]] []).

(** codegen.c 3874-3880, 3891-3975, 4256-4268: the symbols defined; -fcommon makes no difference to size, alignment
    and value. *)
Definition emit_data (r : table) (o : obj) (t : ty) : content :=
  let sz := tsize r t in
  let is_arr := match t with Arr _ _ => true | _ => false end in
  let sz := if is_arr && (sz <? 0) && o_tent o then tsize r (elem t) else sz in
  let align := if is_arr && (16 <=? sz) then Z.max 16 (o_align o) else o_align o in
  CObj sz align (o_tls o) (o_init o).
Definition emit (s : state) : list sym :=
  flat_map (fun o =>
    if o_def o then [Sym (o_name o) (negb (o_static o)) (match o_ty o with None => CFun | Some t => emit_data (recs s) o t end)] else [])
    (globals s).

(** A name in an expression stands for what LinkSpec.v says. *)
Definition agree (r : Z * ref) (u : use) : Prop :=
  let '(k, x, o) := u in
  fst r = k /\
  match o with
  | Some (ELink _ _) => exists t, snd r = RSym x t
  | Some (ELocal j) => snd r = RLocal j
  | Some EOther => snd r = ROther
  | None => False
  end.
