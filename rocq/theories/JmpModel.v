(** The statement parser: /repo/parse.c 561-576 (comma_list), 1577-1604 (cond_declaration), 1607-1615 (declaration),
    2319-2432 (label_stmt), 2434-2480 (secondary_block, loop_body, resolve_labeled_jump), 2494-2657 (stmt), 2660-2735
    (compound_stmt, expr_stmt) and 4508-4538 (resolve_goto_labels). Tokens are those of JmpSpec.v. The parser's own
    counters and lists are passed along as [st]. Not modelled: static_assert, asm, goto *, defer and the list of
    deferred actions (C32), the values of case labels (C24), types and scopes. [Run] and the declarations in the
    tree only record what was read. *)
From Coq Require Import Ascii String ZArith List Bool.
From Verif Require Import JmpSpec.
Import ListNotations.
Local Open Scope string_scope.
Local Open Scope Z_scope.
Local Open Scope list_scope.

(** [Fuel]: the recursion of the model ran out, which no input does. *)
Inductive res (A : Type) := Ok (a : A) | Err | Fuel.
Arguments Ok {A}. Arguments Err {A}. Arguments Fuel {A}.
Definition bind {A B} (x : res A) (f : A -> res B) : res B := match x with Ok a => f a | Err => Err | Fuel => Fuel end.
Notation "'do' X <- A ; B" := (bind A (fun X => B)) (at level 200, X pattern, A at level 100, B at level 200).

(** slimcc.h [Node] of a statement. Unique labels are numbers. *)
Inductive node :=
| NExp (e : option Z)
| NRet (k : Z) (e : option Z)
| NGoto (k j : Z) (x : string) (u : option nat)
| NBreak (k : Z) (x : option (Z * string)) (u : nat)
| NCont (k : Z) (x : option (Z * string)) (u : nat)
| NIf (k : Z) (c : cond) (t : list node) (e : option (list node))
| NSwitch (k : Z) (c : cond) (brk : nat) (cs : list (Z * nat)) (df : option (Z * nat)) (b : list node)
| NWhile (k : Z) (c : cond) (brk cont : nat) (b : list node)
| NDo (k : Z) (b : list node) (j e : Z) (brk cont : nat)
| NFor (k : Z) (f : start) (c : option cond) (i : option Z) (brk cont : nat) (b : list node)
| NBlock (l : list node)
| NDecl (d : Z) (ds : list Z)
| NLabel (u : nat) (l : label) (ls : list label).

(** parse.c 105-118 [JumpContext]; the lists [cases] and [default_case] of a switch are kept here until it ends. *)
Record ctx := Ctx { c_sw : bool; c_names : list string; c_brk : nat; c_cont : nat; c_cases : list (Z * nat); c_def : option (Z * nat) }.
(** The counter of new_unique_name, jump_ctx, and the list [labels] (latest first). *)
Record st := St { ctr : nat; ctxs : list ctx; labs : list (list label * nat) }.

(** * Declarations and conditions *)
(** The declarators after a comma. *)
Fixpoint more (t : list tok) : res (list Z * list tok) :=
  match t with
  | Comma :: Dc d :: r => do (l, r) <- more r; Ok (d :: l, r)
  | Comma :: _ => Err
  | _ => Ok ([], t)
  end.
Definition skip_semi (t : list tok) : res (list tok) := match t with Semi :: r => Ok r | _ => Err end.
(** parse.c 1607-1615 *)
Definition declaration (t : list tok) : res (list Z * list tok) :=
  match t with
  | Semi :: r => Ok ([], r)
  | Dc d :: r => do (l, r) <- more r; do r <- skip_semi r; Ok (d :: l, r)
  | _ => Err
  end.
(** parse.c 1581-1593: the declarations, the object of the last, the number of clauses, whether the last semicolon was
    missing. The loop goes round twice at most. *)
Fixpoint clauses (n : nat) (clause : nat) (t : list tok) : res (list decl * bool * nat * bool * list tok) :=
  match n, t with
  | Datatypes.S n, Ty d :: r =>
      let clause := Datatypes.S clause in
      match r with
      | Dc f :: r =>
          do (l, r) <- more r;
          let var := match l with [] => true | _ => false end in
          match r with
          | Semi :: r' =>
              if Nat.eqb clause 1
              then do (ds, v, c, m, r') <- clauses n clause r'; Ok ((d, (f, l)) :: ds, v, c, m, r')
              else Ok ([(d, (f, l))], var, clause, true, r)
          | _ => Ok ([(d, (f, l))], var, clause, true, r)
          end
      | _ => Err
      end
  | _, _ => Ok ([], false, clause, false, t)
  end.
(** parse.c 1577-1604; [stop] is ")" or ";". *)
Definition is_stop (semi : bool) (t : list tok) : bool :=
  match t with Semi :: _ => semi | RP :: _ => negb semi | _ => false end.
Definition cond_declaration (semi : bool) (clause : nat) (t : list tok) : res (cond * list tok) :=
  do (ds, var, clause, missing, t) <- clauses 2 clause t;
  if (Nat.ltb clause 2) && negb (is_stop semi t) then
    match t with
    | Ex e :: r => if is_stop semi r then Ok ((ds, if missing then Run e else Exp e), tl r) else Err
    | _ => Err
    end
  else if negb var then Err
  else if is_stop semi t then Ok ((ds, Obj), tl t) else Err.

(** * Labels *)
(** The innermost switch gets a case (parse.c 2341-2362, 2412-2417). *)
Fixpoint add_case (k : Z) (u : nat) (cs : list ctx) : res (list ctx) :=
  match cs with
  | [] => Err
  | c :: cs =>
      if c_sw c then Ok (Ctx true (c_names c) (c_brk c) (c_cont c) ((k, u) :: c_cases c) (c_def c) :: cs)
      else do cs <- add_case k u cs; Ok (c :: cs)
  end.
Fixpoint add_default (k : Z) (u : nat) (cs : list ctx) : res (list ctx) :=
  match cs with
  | [] => Err
  | c :: cs =>
      if c_sw c then match c_def c with
                     | Some _ => Err
                     | None => Ok (Ctx true (c_names c) (c_brk c) (c_cont c) (c_cases c) (Some (k, u)) :: cs)
                     end
      else do cs <- add_default k u cs; Ok (c :: cs)
  end.
(** parse.c 2319-2432: the labels, the node if there are any. *)
Fixpoint label_loop (u : nat) (cs : list ctx) (t : list tok) : res (list label * list ctx * list tok) :=
  match t with
  | Id k x :: Colon :: r => do (ls, cs, r) <- label_loop u cs r; Ok (LId k x :: ls, cs, r)
  | KDefault k :: r =>
      do cs <- add_default k u cs;
      match r with Colon :: r => do (ls, cs, r) <- label_loop u cs r; Ok (LDef k :: ls, cs, r) | _ => Err end
  | KCase k :: Ex lo :: Colon :: r =>
      do cs <- add_case k u cs; do (ls, cs, r) <- label_loop u cs r; Ok (LCase k lo None :: ls, cs, r)
  | KCase k :: Ex lo :: Dots :: Ex hi :: Colon :: r =>
      do cs <- add_case k u cs; do (ls, cs, r) <- label_loop u cs r; Ok (LCase k lo (Some hi) :: ls, cs, r)
  | KCase _ :: _ => Err
  | _ => Ok ([], cs, t)
  end.
Definition label_stmt (s : st) (t : list tok) : res (list label * list node * st * list tok) :=
  do (ls, cs, r) <- label_loop (ctr s) (ctxs s) t;
  match ls with
  | [] => Ok ([], [], s, r)
  | a :: l => Ok (ls, [NLabel (ctr s) a l], St (Datatypes.S (ctr s)) cs ((ls, ctr s) :: labs s), r)
  end.

(** * Jumps *)
(** parse.c 2458-2480 *)
Fixpoint resolve (is_cont : bool) (x : option (Z * string)) (cs : list ctx) : res ctx :=
  match cs with
  | [] => Err
  | c :: cs =>
      if is_cont && c_sw c then resolve is_cont x cs
      else match x with
           | None => Ok c
           | Some (_, y) => if existsb (String.eqb y) (c_names c) then Ok c else resolve is_cont x cs
           end
  end.
Definition jump_name (t : list tok) : res (option (Z * string) * list tok) :=
  match t with
  | Id k x :: Semi :: r => Ok (Some (k, x), r)
  | Semi :: r => Ok (None, r)
  | _ => Err
  end.
(** parse.c 2446-2455, 2533-2541: new contexts. *)
Definition push_loop (xs : list string) (s : st) : st :=
  St (ctr s + 2) (Ctx false xs (ctr s) (ctr s + 1)%nat [] None :: ctxs s) (labs s).
Definition push_switch (xs : list string) (s : st) : st :=
  St (ctr s + 1) (Ctx true xs (ctr s) 0 [] None :: ctxs s) (labs s).
Definition pop (s : st) : st := St (ctr s) (tl (ctxs s)) (labs s).
Definition top_cases (s : st) : list (Z * nat) := match ctxs s with c :: _ => c_cases c | [] => [] end.
Definition top_default (s : st) : option (Z * nat) := match ctxs s with c :: _ => c_def c | [] => None end.

(** * Statements *)
Definition opt_exp (t : list tok) : option Z * list tok := match t with Ex e :: r => (Some e, r) | _ => (None, t) end.
(** parse.c 2551-2568: the first two clauses of a for. *)
Definition for_init (t : list tok) : res (start * list tok) :=
  match t with
  | Ty d :: r => do (l, r) <- declaration r; Ok (FDecl d l, r)
  | _ => let '(e, r) := opt_exp t in do r <- skip_semi r; Ok (FExp e, r)
  end.
Definition for_cond (t : list tok) : res (option cond * list tok) :=
  match t with
  | Semi :: r => Ok (None, r)
  | _ => do (c, r) <- cond_declaration true 1 t; Ok (Some c, r)
  end.
(** parse.c 2494-2657; [xs]: label_list. *)
Fixpoint parse (n : nat) (xs : list string) (s : st) (t : list tok) {struct n} : res (node * st * list tok) :=
  match n with
  | O => Fuel
  | Datatypes.S n =>
      match t with
      | KRet k :: r => let '(e, r) := opt_exp r in do r <- skip_semi r; Ok (NRet k e, s, r)
      | KIf k :: LP :: r =>
          do (c, r) <- cond_declaration false 0 r;
          do (b, s, r) <- sub n s r;
          match r with
          | KElse :: r => do (e, s, r) <- sub n s r; Ok (NIf k c b (Some e), s, r)
          | _ => Ok (NIf k c b None, s, r)
          end
      | KSwitch k :: LP :: r =>
          do (c, r) <- cond_declaration false 0 r;
          do (b, s1, r) <- sub n (push_switch xs s) r;
          Ok (NSwitch k c (ctr s) (top_cases s1) (top_default s1) b, pop s1, r)
      | KFor k :: LP :: r =>
          do (f, r) <- for_init r;
          do (c, r) <- for_cond r;
          let '(i, r) := opt_exp r in
          match r with
          | RP :: r =>
              do (b, s1, r) <- sub n (push_loop xs s) r;
              Ok (NFor k f c i (ctr s) (ctr s + 1)%nat b, pop s1, r)
          | _ => Err
          end
      | KWhile k :: LP :: r =>
          do (c, r) <- cond_declaration false 1 r;
          do (b, s1, r) <- sub n (push_loop xs s) r;
          Ok (NWhile k c (ctr s) (ctr s + 1)%nat b, pop s1, r)
      | KDo k :: r =>
          do (b, s1, r) <- sub n (push_loop xs s) r;
          match r with
          | KWhile j :: LP :: Ex e :: RP :: Semi :: r => Ok (NDo k b j e (ctr s) (ctr s + 1)%nat, pop s1, r)
          | _ => Err
          end
      | KGoto k :: Id j x :: Semi :: r => Ok (NGoto k j x None, s, r)
      | KBreak k :: r => do (x, r) <- jump_name r; do c <- resolve false x (ctxs s); Ok (NBreak k x (c_brk c), s, r)
      | KCont k :: r => do (x, r) <- jump_name r; do c <- resolve true x (ctxs s); Ok (NCont k x (c_cont c), s, r)
      | LB :: r => do (l, s, r) <- block n s r; Ok (NBlock l, s, r)
      | Semi :: r => Ok (NExp None, s, r)
      | Ex e :: Semi :: r => Ok (NExp (Some e), s, r)
      | _ => Err
      end
  end
(** secondary_block, parse.c 2434-2443 *)
with sub (n : nat) (s : st) (t : list tok) {struct n} : res (list node * st * list tok) :=
  match n with
  | O => Fuel
  | Datatypes.S n =>
      match t with
      | LB :: r => do (l, s, r) <- block n s r; Ok ([NBlock l], s, r)
      | _ =>
          do (ls, ns, s, t) <- label_stmt s t;
          do (b, s, t) <- parse n (names ls) s t;
          Ok (ns ++ [b], s, t)
      end
  end
(** compound_stmt, parse.c 2660-2735 *)
with block (n : nat) (s : st) (t : list tok) {struct n} : res (list node * st * list tok) :=
  match n with
  | O => Fuel
  | Datatypes.S n =>
      do (ls, ns, s, t) <- label_stmt s t;
      match t with
      | RB :: r => Ok (ns, s, r)
      | Ty d :: r => do (l, r) <- declaration r; do (b, s, r) <- block n s r; Ok (ns ++ NDecl d l :: b, s, r)
      | t => do (a, s, t) <- parse n (names ls) s t; do (b, s, t) <- block n s t; Ok (ns ++ a :: b, s, t)
      end
  end.

(** * Functions *)
(** parse.c 4513-4538: the first label found, the latest first. *)
Fixpoint find_label (x : string) (l : list (list label * nat)) : option nat :=
  match l with
  | [] => None
  | (ls, u) :: l => if existsb (String.eqb x) (names ls) then Some u else find_label x l
  end.
Section Gotos.
Variable l : list (list label * nat).
Fixpoint goto_labels (n : node) : res node :=
  let all := fix all (b : list node) : res (list node) :=
    match b with [] => Ok [] | n :: b => do n <- goto_labels n; do b <- all b; Ok (n :: b) end in
  match n with
  | NGoto k j x _ => match find_label x l with Some u => Ok (NGoto k j x (Some u)) | None => Err end
  | NIf k c t None => do t <- all t; Ok (NIf k c t None)
  | NIf k c t (Some e) => do t <- all t; do e <- all e; Ok (NIf k c t (Some e))
  | NSwitch k c brk cs df b => do b <- all b; Ok (NSwitch k c brk cs df b)
  | NWhile k c brk cont b => do b <- all b; Ok (NWhile k c brk cont b)
  | NDo k b j e brk cont => do b <- all b; Ok (NDo k b j e brk cont)
  | NFor k f c i brk cont b => do b <- all b; Ok (NFor k f c i brk cont b)
  | NBlock b => do b <- all b; Ok (NBlock b)
  | n => Ok n
  end.
End Gotos.
(** parse.c 4587-4629: the body of a function, after its "{". *)
Definition body (t : list tok) : res (list node * list tok) :=
  do (l, s, r) <- block (2 * length t + 2) (St 0 [] []) t;
  do n <- goto_labels (labs s) (NBlock l);
  match n with NBlock l => Ok (l, r) | _ => Err end.

(** * What the tree holds *)
Inductive place := PBrk (k : Z) | PCont (k : Z) | PLab (ls : list label).
(** The places the unique labels stand for. *)
Fixpoint places (n : node) : list (nat * place) :=
  match n with
  | NIf _ _ t None => flat_map places t
  | NIf _ _ t (Some e) => flat_map places t ++ flat_map places e
  | NSwitch k _ brk _ _ b => (brk, PBrk k) :: flat_map places b
  | NWhile k _ brk cont b | NDo k b _ _ brk cont | NFor k _ _ _ brk cont b => (brk, PBrk k) :: (cont, PCont k) :: flat_map places b
  | NBlock b => flat_map places b
  | NLabel u a l => [(u, PLab (a :: l))]
  | _ => []
  end.
(** The jumps, with the unique labels they go to. *)
Fixpoint gotos (n : node) : list (Z * option nat) :=
  match n with
  | NGoto k _ _ u => [(k, u)]
  | NBreak k _ u | NCont k _ u => [(k, Some u)]
  | NIf _ _ t None => flat_map gotos t
  | NIf _ _ t (Some e) => flat_map gotos t ++ flat_map gotos e
  | NSwitch _ _ _ _ _ b | NWhile _ _ _ _ b | NDo _ b _ _ _ _ | NFor _ _ _ _ _ _ b | NBlock b => flat_map gotos b
  | _ => []
  end.
(** The tables of the switch statements. *)
Fixpoint tables (n : node) : list (Z * (list (Z * nat) * option (Z * nat))) :=
  match n with
  | NIf _ _ t None => flat_map tables t
  | NIf _ _ t (Some e) => flat_map tables t ++ flat_map tables e
  | NSwitch k _ _ cs df b => (k, (cs, df)) :: flat_map tables b
  | NWhile _ _ _ _ b | NDo _ b _ _ _ _ | NFor _ _ _ _ _ _ b | NBlock b => flat_map tables b
  | _ => []
  end.
(** A jump goes to the place C says, [pl] being the places of the function. *)
Definition right_jump (pl : list (nat * place)) (g : Z * option nat) (j : Z * option target) : Prop :=
  fst g = fst j /\
  match snd j with
  | Some (AfterOf k) => exists u, snd g = Some u /\ In (u, PBrk k) pl
  | Some (NextOf k) => exists u, snd g = Some u /\ In (u, PCont k) pl
  | Some (Labelled x) => exists u ls, snd g = Some u /\ In (u, PLab ls) pl /\ In x (names ls)
  | None => False
  end.
(** A switch has the labels C says, the last first. *)
Definition right_table (pl : list (nat * place)) (t : Z * (list (Z * nat) * option (Z * nat))) (w : Z * list label) : Prop :=
  let '(k, (cs, df)) := t in
  k = fst w /\ map fst cs = rev (cases (snd w)) /\ map fst match df with Some d => [d] | None => [] end = defaults (snd w) /\
  (forall k u, In (k, u) cs -> exists ls, In (u, PLab ls) pl /\ In k (cases ls)) /\
  (forall k u, df = Some (k, u) -> exists ls, In (u, PLab ls) pl /\ In k (defaults ls)).
(** The statement a node was read from. *)
Fixpoint erase (n : node) : stmt :=
  let part (b : list node) : list label * stmt :=
    match b with
    | [NLabel _ a l; n] => (a :: l, erase n)
    | [n] => ([], erase n)
    | _ => ([], SExp None)
    end in
  match n with
  | NExp e => SExp e
  | NRet k e => SRet k e
  | NGoto k j x _ => SGoto k j x
  | NBreak k x _ => SBreak k x
  | NCont k x _ => SCont k x
  | NIf k c t None => SIf k c (fst (part t)) (snd (part t))
  | NIf k c t (Some e) => SElse k c (fst (part t)) (snd (part t)) (fst (part e)) (snd (part e))
  | NSwitch k c _ _ _ b => SSwitch k c (fst (part b)) (snd (part b))
  | NWhile k c _ _ b => SWhile k c (fst (part b)) (snd (part b))
  | NDo k b j e _ _ => SDo k (fst (part b)) (snd (part b)) j e
  | NFor k f c i _ _ b => SFor k f c i (fst (part b)) (snd (part b))
  | NBlock b => SBlock (map erase b)
  | NDecl d l => SDecl d l
  | NLabel _ a l => SLabs a l
  end.
