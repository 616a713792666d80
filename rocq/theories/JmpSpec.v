(** Statements (C23 6.8, with the named loops and the conditions with declarations of C2Y): the grammar, and
    where every jump goes. *)
From Coq Require Import Ascii String ZArith List Bool.
Import ListNotations.
Local Open Scope string_scope.
Local Open Scope Z_scope.
Local Open Scope list_scope.

(** * Tokens *)
(** An expression (C56), declaration specifiers (C37) and a declarator with its initializer (C57, C58) are one
    token each; an identifier is a token where it is not an expression. [k] tells occurrences apart. *)
Inductive tok :=
| KIf (k : Z) | KElse | KSwitch (k : Z) | KWhile (k : Z) | KDo (k : Z) | KFor (k : Z) | KGoto (k : Z) | KBreak (k : Z) | KCont (k : Z)
| KRet (k : Z) | KCase (k : Z) | KDefault (k : Z) | Id (k : Z) (x : string) | Ex (e : Z) | Ty (d : Z) | Dc (d : Z)
| LP | RP | LB | RB | Semi | Colon | Comma | Dots.

(** * Syntax trees *)
Inductive label := LId (k : Z) (x : string) | LCase (k lo : Z) (hi : option Z) | LDef (k : Z).
Definition decl := (Z * (Z * list Z))%type.     (* specifiers, the first declarator and the others *)
(** The condition of if, switch, while and for: declarations, then an expression or the last declared object. [Run e]:
    an expression with no semicolon between it and the declaration. *)
Inductive val := Exp (e : Z) | Run (e : Z) | Obj.
Definition cond := (list decl * val)%type.
Inductive start := FDecl (d : Z) (ds : list Z) | FExp (e : option Z).
Inductive stmt :=
| SExp (e : option Z)
| SRet (k : Z) (e : option Z)
| SGoto (k j : Z) (x : string)
| SBreak (k : Z) (x : option (Z * string))
| SCont (k : Z) (x : option (Z * string))
| SIf (k : Z) (c : cond) (ls : list label) (s : stmt)
| SElse (k : Z) (c : cond) (ls : list label) (s : stmt) (ms : list label) (u : stmt)
| SSwitch (k : Z) (c : cond) (ls : list label) (s : stmt)
| SWhile (k : Z) (c : cond) (ls : list label) (s : stmt)
| SDo (k : Z) (ls : list label) (s : stmt) (j e : Z)
| SFor (k : Z) (f : start) (c : option cond) (i : option Z) (ls : list label) (s : stmt)
| SBlock (l : list stmt)
(* only in a block: *)
| SDecl (d : Z) (ds : list Z)
| SLabs (l : label) (ls : list label).

(** * How they are written *)
Definition p_label (l : label) : list tok :=
  match l with
  | LId k x => [Id k x; Colon]
  | LCase k lo None => [KCase k; Ex lo; Colon]
  | LCase k lo (Some hi) => [KCase k; Ex lo; Dots; Ex hi; Colon]
  | LDef k => [KDefault k; Colon]
  end.
Definition p_labels (ls : list label) : list tok := flat_map p_label ls.
Definition p_more (l : list Z) : list tok := flat_map (fun d => [Comma; Dc d]) l.
Definition p_decl (d : decl) : list tok := Ty (fst d) :: Dc (fst (snd d)) :: p_more (snd (snd d)).
Definition p_cond (c : cond) : list tok :=
  match c with
  | (ds, Exp e) => flat_map (fun d => p_decl d ++ [Semi]) ds ++ [Ex e]
  | ([d; f], _) => p_decl d ++ [Semi] ++ p_decl f
  | (ds, Run e) => flat_map p_decl ds ++ [Ex e]
  | (ds, Obj) => flat_map p_decl ds
  end.
Definition p_list (l : list Z) : list tok := match l with [] => [] | d :: l => Dc d :: p_more l end.
Definition p_opt (e : option Z) : list tok := match e with Some e => [Ex e] | None => [] end.
Definition p_name (x : option (Z * string)) : list tok := match x with Some (k, x) => [Id k x] | None => [] end.
Definition p_start (f : start) : list tok := match f with FDecl d l => Ty d :: p_list l ++ [Semi] | FExp e => p_opt e ++ [Semi] end.
Fixpoint pr (s : stmt) : list tok :=
  match s with
  | SExp e => p_opt e ++ [Semi]
  | SRet k e => KRet k :: p_opt e ++ [Semi]
  | SGoto k j x => [KGoto k; Id j x; Semi]
  | SBreak k x => KBreak k :: p_name x ++ [Semi]
  | SCont k x => KCont k :: p_name x ++ [Semi]
  | SIf k c ls s => KIf k :: LP :: p_cond c ++ RP :: p_labels ls ++ pr s
  | SElse k c ls s ms u => KIf k :: LP :: p_cond c ++ RP :: p_labels ls ++ pr s ++ KElse :: p_labels ms ++ pr u
  | SSwitch k c ls s => KSwitch k :: LP :: p_cond c ++ RP :: p_labels ls ++ pr s
  | SWhile k c ls s => KWhile k :: LP :: p_cond c ++ RP :: p_labels ls ++ pr s
  | SDo k ls s j e => KDo k :: p_labels ls ++ pr s ++ [KWhile j; LP; Ex e; RP; Semi]
  | SFor k f c i ls s =>
      KFor k :: LP :: p_start f ++ match c with Some c => p_cond c | None => [] end ++ Semi :: p_opt i ++ RP :: p_labels ls ++ pr s
  | SBlock l => LB :: flat_map pr l ++ [RB]
  | SDecl d l => Ty d :: p_list l ++ [Semi]
  | SLabs l ls => p_label l ++ p_labels ls
  end.

(** * The constraints of the grammar *)
(** 6.8.5.2 p3: an else belongs to the nearest if; what ends with an if without else cannot stand before one. *)
Fixpoint ends_if (s : stmt) : bool :=
  match s with
  | SIf _ _ _ _ => true
  | SElse _ _ _ _ _ u => ends_if u
  | SSwitch _ _ _ s | SWhile _ _ _ s | SFor _ _ _ _ _ s => ends_if s
  | _ => false
  end.
(** Conditions of if and switch (at most two declarations), of while and for. [std]: as C2Y has them. *)
Definition single (d : decl) : bool := match snd (snd d) with [] => true | _ => false end.
Definition choice (c : cond) : bool :=
  match c with
  | ([], Exp _) | ([_], Exp _) | ([_], Run _) => true
  | ([d], Obj) | ([_; d], Obj) => single d
  | _ => false
  end.
Definition repeat_ (c : cond) : bool := match c with ([], Exp _) => true | ([d], Obj) => single d | _ => false end.
Definition std_cond (c : cond) : bool := match c with ([_; _], _) | (_, Run _) => false | _ => true end.
(** A statement, and not a declaration or labels only. *)
Definition plain (s : stmt) : bool := match s with SDecl _ _ | SLabs _ _ => false | _ => true end.
(** Labels of a block are taken together. *)
Fixpoint apart (l : list stmt) : bool :=
  match l with
  | SLabs _ _ :: (SLabs _ _ :: _) => false
  | _ :: l => apart l
  | [] => true
  end.
Fixpoint grammar (s : stmt) : bool :=
  match s with
  | SIf _ c _ s => choice c && plain s && grammar s
  | SElse _ c _ s _ u => choice c && plain s && grammar s && negb (ends_if s) && plain u && grammar u
  | SSwitch _ c _ s => choice c && plain s && grammar s
  | SWhile _ c _ s => repeat_ c && plain s && grammar s
  | SDo _ _ s _ _ => plain s && grammar s
  | SFor _ _ c _ _ s => match c with Some c => repeat_ c | None => true end && plain s && grammar s
  | SBlock l => apart l && forallb grammar l
  | _ => true
  end.
Fixpoint standard (s : stmt) : bool :=
  match s with
  | SIf _ c _ s | SSwitch _ c _ s | SWhile _ c _ s => std_cond c && standard s
  | SElse _ c _ s _ u => std_cond c && standard s && standard u
  | SDo _ _ s _ _ => standard s
  | SFor _ _ c _ _ s => match c with Some c => std_cond c | None => true end && standard s
  | SBlock l => forallb standard l
  | _ => true
  end.

(** * Where jumps go *)
Definition names (ls : list label) : list string := flat_map (fun l => match l with LId _ x => [x] | _ => [] end) ls.
(** The enclosing statements, innermost first: a loop or a switch, with the labels before it. *)
Inductive frame := Loop (k : Z) (xs : list string) | Sw (k : Z) (xs : list string).
Inductive target := AfterOf (k : Z) | NextOf (k : Z) | Labelled (x : string).
Definition has (x : option (Z * string)) (xs : list string) : bool := match x with None => true | Some (_, x) => existsb (String.eqb x) xs end.
(** 6.8.7.3, 6.8.7.4: break leaves the innermost loop or switch, or the innermost with the label; continue the
    same for loops. *)
Fixpoint broken (c : list frame) (x : option (Z * string)) : option target :=
  match c with
  | [] => None
  | Loop k xs :: c | Sw k xs :: c => if has x xs then Some (AfterOf k) else broken c x
  end.
Fixpoint continued (c : list frame) (x : option (Z * string)) : option target :=
  match c with
  | [] => None
  | Loop k xs :: c => if has x xs then Some (NextOf k) else continued c x
  | Sw _ _ :: c => continued c x
  end.
(** The labels directly before each statement of a block. *)
Section Jumps.
Variable one : list string -> stmt -> list (Z * option target).
Fixpoint items (xs : list string) (l : list stmt) : list (Z * option target) :=
  match l with
  | [] => []
  | SLabs a ls :: l => items (names (a :: ls)) l
  | s :: l => one xs s ++ items [] l
  end.
End Jumps.
(** The jumps in [s], in order, with their targets; [xs]: the labels directly before [s]. *)
Fixpoint jumps (c : list frame) (xs : list string) (s : stmt) {struct s} : list (Z * option target) :=
  match s with
  | SGoto k _ x => [(k, Some (Labelled x))]
  | SBreak k x => [(k, broken c x)]
  | SCont k x => [(k, continued c x)]
  | SIf _ _ ls s => jumps c (names ls) s
  | SElse _ _ ls s ms u => jumps c (names ls) s ++ jumps c (names ms) u
  | SSwitch k _ ls s => jumps (Sw k xs :: c) (names ls) s
  | SWhile k _ ls s | SDo k ls s _ _ | SFor k _ _ _ ls s => jumps (Loop k xs :: c) (names ls) s
  | SBlock l => items (fun xs s => jumps c xs s) [] l
  | _ => []
  end.
(** All labels of a statement, in order. *)
Fixpoint labels (s : stmt) : list label :=
  match s with
  | SIf _ _ ls s | SSwitch _ _ ls s | SWhile _ _ ls s | SDo _ ls s _ _ | SFor _ _ _ _ ls s => ls ++ labels s
  | SElse _ _ ls s ms u => (ls ++ labels s) ++ ms ++ labels u
  | SBlock l => flat_map labels l
  | SLabs l ls => l :: ls
  | _ => []
  end.
(** 6.8.5.3: the case and default labels of the switch a statement belongs to. *)
Definition cases (ls : list label) : list Z := flat_map (fun l => match l with LCase k _ _ => [k] | _ => [] end) ls.
Definition defaults (ls : list label) : list Z := flat_map (fun l => match l with LDef k => [k] | _ => [] end) ls.
Fixpoint own (s : stmt) : list label :=
  match s with
  | SIf _ _ ls s | SWhile _ _ ls s | SDo _ ls s _ _ | SFor _ _ _ _ ls s => ls ++ own s
  | SElse _ _ ls s ms u => (ls ++ own s) ++ ms ++ own u
  | SBlock l => flat_map own l
  | SLabs l ls => l :: ls
  | _ => []
  end.
(** The switch statements, with their labels. *)
Fixpoint switches (s : stmt) : list (Z * list label) :=
  match s with
  | SIf _ _ _ s | SWhile _ _ _ s | SDo _ _ s _ _ | SFor _ _ _ _ _ s => switches s
  | SElse _ _ _ s _ u => switches s ++ switches u
  | SSwitch k _ ls s => (k, ls ++ own s) :: switches s
  | SBlock l => flat_map switches l
  | _ => []
  end.
(** A function body in which all jumps have a target, labels of switches are in one, with one default at most. *)
Record valid (s : stmt) : Prop := {
  v_jumps : forall k t, In (k, t) (jumps [] [] s) -> t <> None;
  v_gotos : forall k x, In (k, Some (Labelled x)) (jumps [] [] s) -> In x (names (labels s));
  v_cases : cases (own s) = [] /\ defaults (own s) = [];
  v_default : forall k ls, In (k, ls) (switches s) -> (length (defaults ls) <= 1)%nat }.
