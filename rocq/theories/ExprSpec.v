(** The grammar of C expressions (C17 6.5), type names (6.7.7) and declarators (6.7.6), with the
    tree or type each phrase stands for. *)
From Coq Require Import String ZArith List Bool.
From Verif Require Import DeclSpec.
Import ListNotations.
Local Open Scope string_scope.

(** Tokens. [TD] is a keyword that may occur among declaration specifiers, in the words of
    DeclSpec (a whole struct, union, enum, typeof or _Atomic() specifier is one token); [TW] is
    any other keyword. *)
Inductive tok := TP (s : string) | TW (s : string) | TD (d : dtok) | TId (s : string)
               | TNum (z : Z) | TStr (s : string).

Inductive bop := OMul | ODiv | OMod | OAdd | OSub | OShl | OShr | OLt | OGt | OLe | OGe | OEq | ONe
               | OAnd | OXor | OOr | OLAnd | OLOr.
Inductive uop := UPlus | UMinus | UDeref | UAddr | UNot | UCompl.

(** Trees and types. A parameter list is missing, or is a list with or without ellipsis. *)
Inductive etree :=
| EId (s : string) | ENum (z : Z) | EStr (s : string)
| EBin (o : bop) (a b : etree) | EUn (u : uop) (a : etree)
| EPre (inc : bool) (a : etree) | EPost (inc : bool) (a : etree)
| ECast (t : ctype) (a : etree)
| ESizeofE (a : etree) | ESizeofT (t : ctype) | EAlignE (a : etree) | EAlignT (t : ctype)
| ECond (a b c : etree) | EElvis (a c : etree)
| EAssign (o : option bop) (a b : etree) | EComma (a b : etree)
| ECall (a : etree) (bs : list etree) | EIndex (a b : etree)
| EDot (a : etree) (s : string) | EArrow (a : etree) (s : string) | ELabel (s : string)
with ctype :=
| CBase (t : dtype) | CPtr (q : quals) (t : ctype) | CArr (q : quals) (n : option etree) (t : ctype)
| CFun (ps : option (list (option string * ctype) * bool)) (t : ctype).

(** Nonterminals of 6.5.1-6.5.17. *)
Inductive nt := Prim | Post | Unary | Cast | Mul | Add | Shift | Rel | Eql | BAnd | BXor | BOr | LAnd | LOr
              | Cond | Asg | Expr.

(** 6.5.5-6.5.14: the operators of each binary nonterminal, and what its right operand is. *)
Definition operators (n : nt) : list (string * bop) :=
  match n with
  | Mul => [("*", OMul); ("/", ODiv); ("%", OMod)]
  | Add => [("+", OAdd); ("-", OSub)]
  | Shift => [("<<", OShl); (">>", OShr)]
  | Rel => [("<", OLt); (">", OGt); ("<=", OLe); (">=", OGe)]
  | Eql => [("==", OEq); ("!=", ONe)]
  | BAnd => [("&", OAnd)]
  | BXor => [("^", OXor)]
  | BOr => [("|", OOr)]
  | LAnd => [("&&", OLAnd)]
  | LOr => [("||", OLOr)]
  | _ => []
  end.
Definition operand (n : nt) : option nt :=
  match n with
  | Mul => Some Cast | Add => Some Mul | Shift => Some Add | Rel => Some Shift | Eql => Some Rel
  | BAnd => Some Eql | BXor => Some BAnd | BOr => Some BXor | LAnd => Some BOr | LOr => Some LAnd
  | _ => None
  end.
(** 6.5.3. *)
Definition unary_ops : list (string * uop) :=
  [("&", UAddr); ("*", UDeref); ("+", UPlus); ("-", UMinus); ("~", UCompl); ("!", UNot)].
(** 6.5.16. *)
Definition assign_ops : list (string * option bop) :=
  [("=", None); ("*=", Some OMul); ("/=", Some ODiv); ("%=", Some OMod); ("+=", Some OAdd); ("-=", Some OSub);
   ("<<=", Some OShl); (">>=", Some OShr); ("&=", Some OAnd); ("^=", Some OXor); ("|=", Some OOr)].

(** Only such types are returned by functions, or are elements of arrays. *)
Definition is_fun (t : ctype) : bool := match t with CFun _ _ => true | _ => false end.
Definition is_arr (t : ctype) : bool := match t with CArr _ _ _ => true | _ => false end.
Definition is_void (t : ctype) : bool :=
  match t with CBase (mkt (Basic BVoid) _) => true | _ => false end.
(** 6.7.6.3 paragraphs 7 and 8. *)
Definition adjusted (t : ctype) : ctype :=
  match t with CArr q _ e => CPtr q e | CFun _ _ => CPtr noq t | _ => t end.

Section Grammar.
(** The types of typedef names in scope. *)
Variable tdef : string -> option dtype.
(** Whether ( ) means no parameters (C23). *)
Variable c23 : bool.
(** [lax]: with the phrases the C grammar does not have but the parser takes: any conditional
    expression left of an assignment operator, and postfix operators after sizeof and alignof. *)
Variable lax : bool.

(** What a token is to a list of declaration specifiers. *)
Definition word (t : tok) : dtok :=
  match t with
  | TD d => d
  | TId s => match tdef s with Some t => TName t | None => TStop end
  | _ => TStop
  end.
Definition no_stor (d : dtok) : Prop := match d with TStor _ | TNoreturn => False | _ => True end.

(** Specifier lists that name type [t], without storage classes and function specifiers: keywords, or one struct, union,
    enum or typedef name; qualifiers anywhere. *)
Inductive specs : list tok -> dtype -> Prop :=
| sp_kw : forall ts b, Forall plain (map word ts) -> Forall no_stor (map word ts) -> signs_once (map word ts) ->
    denotes (kws (map word ts)) b -> specs ts (mkt (Basic b) (quals_in (map word ts)))
| sp_other : forall ts us x t, word x = TTag t \/ word x = TName t ->
    Forall no_type (map word (ts ++ us)) -> Forall no_stor (map word (ts ++ us)) ->
    quals_in (map word (ts ++ us)) = noq \/ tquals t = noq ->
    specs (ts ++ x :: us) (mkt (tbase t) (union_q (tquals t) (quals_in (map word (ts ++ us))))).

Definition qwords (qs : list qual) : list tok := map (fun q => TD (TQual q)) qs.
Definition qset (qs : list qual) : quals := quals_in (map TQual qs).

(** [ex n ts a]: the tokens [ts] are a phrase of [n] that stands for [a]. Commas group to the
    right. Not covered: compound literals, _Generic, statement expressions and builtins.
    Covered extensions: [a ?: b], [&&label], alignof of an expression.
    [decl k T ts x T']: in a declaration [T ts], [x] is declared with type [T']; the declarator
    is abstract ([k] false, no name) or not. Not covered: qualifiers after "static" in brackets,
    identifier lists, a lone ellipsis, typedef names redeclared in parentheses. *)
Inductive ex : nt -> list tok -> etree -> Prop :=
| ex_id : forall s, tdef s = None -> ex Prim [TId s] (EId s)
| ex_num : forall z, ex Prim [TNum z] (ENum z)
| ex_str : forall s, ex Prim [TStr s] (EStr s)
| ex_par : forall ts a, ex Expr ts a -> ex Prim (TP "(" :: ts ++ [TP ")"]) a
| ex_post : forall ts a, ex Prim ts a -> ex Post ts a
| ex_index : forall ts a us b, ex Post ts a -> ex Expr us b ->
    ex Post (ts ++ TP "[" :: us ++ [TP "]"]) (EIndex a b)
| ex_call : forall ts a us bs, ex Post ts a -> args us bs ->
    ex Post (ts ++ TP "(" :: us ++ [TP ")"]) (ECall a bs)
| ex_dot : forall ts a s, ex Post ts a -> ex Post (ts ++ [TP "."; TId s]) (EDot a s)
| ex_arrow : forall ts a s, ex Post ts a -> ex Post (ts ++ [TP "->"; TId s]) (EArrow a s)
| ex_inc : forall ts a, ex Post ts a -> ex Post (ts ++ [TP "++"]) (EPost true a)
| ex_dec : forall ts a, ex Post ts a -> ex Post (ts ++ [TP "--"]) (EPost false a)
| ex_unary : forall ts a, ex Post ts a -> ex Unary ts a
| ex_preinc : forall ts a, ex Unary ts a -> ex Unary (TP "++" :: ts) (EPre true a)
| ex_predec : forall ts a, ex Unary ts a -> ex Unary (TP "--" :: ts) (EPre false a)
| ex_un : forall s u ts a, In (s, u) unary_ops -> ex Cast ts a -> ex Unary (TP s :: ts) (EUn u a)
| ex_sizeof : forall ts a, ex Unary ts a -> ex Unary (TW "sizeof" :: ts) (ESizeofE a)
| ex_sizeof_ty : forall ts t, tyname ts t ->
    ex Unary (TW "sizeof" :: TP "(" :: ts ++ [TP ")"]) (ESizeofT t)
| ex_align : forall ts a, ex Unary ts a -> ex Unary (TW "_Alignof" :: ts) (EAlignE a)
| ex_align_ty : forall ts t, tyname ts t ->
    ex Unary (TW "_Alignof" :: TP "(" :: ts ++ [TP ")"]) (EAlignT t)
| ex_label : forall s, ex Unary [TP "&&"; TId s] (ELabel s)
| ex_cast0 : forall ts a, ex Unary ts a -> ex Cast ts a
| ex_cast : forall ts t us a, tyname ts t -> ex Cast us a ->
    ex Cast (TP "(" :: ts ++ TP ")" :: us) (ECast t a)
| ex_opnd : forall n m ts a, operand n = Some m -> ex m ts a -> ex n ts a
| ex_bin : forall n m s o ts a us b, operand n = Some m -> In (s, o) (operators n) ->
    ex n ts a -> ex m us b -> ex n (ts ++ TP s :: us) (EBin o a b)
| ex_cond0 : forall ts a, ex LOr ts a -> ex Cond ts a
| ex_cond : forall ts a us b vs c, ex LOr ts a -> ex Expr us b -> ex Cond vs c ->
    ex Cond (ts ++ TP "?" :: us ++ TP ":" :: vs) (ECond a b c)
| ex_elvis : forall ts a vs c, ex LOr ts a -> ex Cond vs c ->
    ex Cond (ts ++ TP "?" :: TP ":" :: vs) (EElvis a c)
| ex_asg0 : forall ts a, ex Cond ts a -> ex Asg ts a
| ex_asg : forall s o ts a us b, In (s, o) assign_ops -> ex Unary ts a -> ex Asg us b ->
    ex Asg (ts ++ TP s :: us) (EAssign o a b)
| ex_expr0 : forall ts a, ex Asg ts a -> ex Expr ts a
| ex_comma : forall ts a us b, ex Asg ts a -> ex Expr us b ->
    ex Expr (ts ++ TP "," :: us) (EComma a b)
| ex_lax_asg : forall s o ts a us b, lax = true -> In (s, o) assign_ops -> ex Cond ts a -> ex Asg us b ->
    ex Asg (ts ++ TP s :: us) (EAssign o a b)
| ex_lax_size : forall ts a, lax = true -> ex Unary (TW "sizeof" :: ts) a -> ex Prim (TW "sizeof" :: ts) a
| ex_lax_align : forall ts a, lax = true -> ex Unary (TW "_Alignof" :: ts) a -> ex Prim (TW "_Alignof" :: ts) a
with args : list tok -> list etree -> Prop :=
| args0 : args [] []
| args1 : forall ts a, ex Asg ts a -> args ts [a]
| args2 : forall ts a us b bs, ex Asg ts a -> args us (b :: bs) -> args (ts ++ TP "," :: us) (a :: b :: bs)
with tyname : list tok -> ctype -> Prop :=
| tyname_ : forall ts t us t', specs ts t -> decl false (CBase t) us None t' -> tyname (ts ++ us) t'
with decl : bool -> ctype -> list tok -> option string -> ctype -> Prop :=
| decl_dir : forall k T ts x T', ddecl k T ts x T' -> decl k T ts x T'
| decl_ptr : forall k T qs ts x T', decl k (CPtr (qset qs) T) ts x T' ->
    decl k T (TP "*" :: qwords qs ++ ts) x T'
with ddecl : bool -> ctype -> list tok -> option string -> ctype -> Prop :=
| dd_id : forall T s, ddecl true T [TId s] (Some s) T
| dd_none : forall T, ddecl false T [] None T
| dd_par : forall k T t ts x T', decl k T (t :: ts) x T' -> word t = TStop ->
    ddecl k T (TP "(" :: (t :: ts) ++ [TP ")"]) x T'
| dd_arr : forall k T ts x T' us n, is_fun T = false -> bound us n -> ddecl k (CArr noq n T) ts x T' ->
    ddecl k T (ts ++ TP "[" :: us ++ [TP "]"]) x T'
| dd_arr_q : forall k T ts x us n qs, is_fun T = false -> bound us n ->
    ddecl k (CArr (qset qs) n T) ts x (CArr (qset qs) n T) ->
    ddecl k T (ts ++ TP "[" :: qwords qs ++ us ++ [TP "]"]) x (CArr (qset qs) n T)
| dd_arr_static : forall k T ts x us a qs, is_fun T = false -> ex Asg us a ->
    ddecl k (CArr (qset qs) (Some a) T) ts x (CArr (qset qs) (Some a) T) ->
    ddecl k T (ts ++ TP "[" :: qwords qs ++ TD (TStor SStatic) :: us ++ [TP "]"]) x (CArr (qset qs) (Some a) T)
| dd_fun : forall k T ts x T' us ps, is_fun T = false -> is_arr T = false -> prms us ps ->
    ddecl k (CFun ps T) ts x T' ->
    ddecl k T (ts ++ TP "(" :: us ++ [TP ")"]) x T'
with bound : list tok -> option etree -> Prop :=
| bound0 : bound [] None
| bound_star : bound [TP "*"] None
| bound_e : forall ts a, ex Asg ts a -> bound ts (Some a)
with prms : list tok -> option (list (option string * ctype) * bool) -> Prop :=
| prms0 : prms [] (if c23 then Some ([], false) else None)
| prms_void : prms [TD (TKw KVoid)] (Some ([], false))
| prms_ : forall ts l, plist ts l -> prms ts (Some (l, false))
| prms_dots : forall ts l, plist ts l -> prms (ts ++ [TP ","; TP "..."]) (Some (l, true))
with plist : list tok -> list (option string * ctype) -> Prop :=
| plist1 : forall ts p, parm ts p -> plist ts [p]
| plist2 : forall ts p us l, parm ts p -> plist us l -> plist (ts ++ TP "," :: us) (p :: l)
with parm : list tok -> option string * ctype -> Prop :=
| parm_ : forall k ts t us x T', specs ts t -> decl k (CBase t) us x T' -> is_void T' = false ->
    parm (ts ++ us) (x, adjusted T').
End Grammar.

(** What follows a full expression, and what follows a declarator. *)
Definition after_expr (rest : list tok) : Prop :=
  match rest with
  | [] => True
  | TP s :: _ => In s [")"; "]"; "}"; ";"; ":"]
  | _ => False
  end.
Definition after_decl (rest : list tok) : Prop :=
  match rest with
  | [] => True
  | TP s :: _ => In s [","; ";"; "="; "{"; ")"; ":"]
  | _ => False
  end.
(** No token names a type. *)
Definition no_types (tdef : string -> option dtype) (toks : list tok) : Prop :=
  Forall (fun t => word tdef t = TStop) toks.
