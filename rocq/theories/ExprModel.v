(** Model of the expression, type-name and declarator parser (parse.c).
    Simplifications. The token list ends where TK_EOF stands. The parser also types the nodes it
    builds (add_type, new_add, new_sub, to_assign, cond_cast, prepare_funcall); here a node is
    the operator and its operands, and errors found by typing do not occur. Scopes enter through
    [tdef] only: the type of an identifier that find_typedef (parse.c:339-346) finds. Names
    declared by parameters do not hide typedef names in the rest of the parameter list. Attributes,
    compound literals, statement expressions, _Generic, builtins, true and false, and identifier
    lists are PErr. Types are built as trees; whether an array is a VLA is left open. *)
From Coq Require Import String ZArith List Bool.
From Verif Require Import Base DeclSpec DeclModel ExprSpec.
Import ListNotations.
Local Open Scope string_scope.

(** Result of a parser: [PErr] is error_tok, [PFuel] the end of the recursion fuel. *)
Inductive pres (A : Type) := POk (a : A) | PErr | PFuel.
Arguments POk {A} a.
Arguments PErr {A}.
Arguments PFuel {A}.
Definition pbind {A B} (m : pres A) (k : A -> pres B) : pres B :=
  match m with POk a => k a | PErr => PErr | PFuel => PFuel end.
Notation "'pdo' x <- m ; k" := (pbind m (fun x => k)) (at level 60, x pattern, right associativity).

(** equal with consume (tokenize.c:123-134): the rest after punctuator [s]. *)
Definition punct (s : string) (toks : list tok) : option (list tok) :=
  match toks with TP s' :: r => if String.eqb s s' then Some r else None | _ => None end.
(** skip (tokenize.c:136-140). *)
Definition skip (s : string) (toks : list tok) : pres (list tok) :=
  match punct s toks with Some r => POk r | None => PErr end.
(** The first of some operators that stands at the head. *)
Fixpoint find_op {A} (l : list (string * A)) (toks : list tok) : option (A * list tok) :=
  match l with
  | [] => None
  | (s, a) :: l => match punct s toks with Some r => Some (a, r) | None => find_op l toks end
  end.

(** parse.c:1230-1248. *)
Fixpoint skip_paren (level : nat) (toks : list tok) : pres (list tok) :=
  match toks with
  | [] => PErr
  | t :: r =>
      match t with
      | TP ")" => match level with O => POk r | S l => skip_paren l r end
      | TP "(" => skip_paren (S level) r
      | _ => skip_paren level r
      end
  end.

(** The operators tested by log_or (parse.c:3372-3380), log_and (3383-3391), bit_or (3394-3402),
    bit_xor (3405-3413), bit_and (3416-3424), equality (3427-3446), relational (3449-3478), shift
    (3481-3504), add (3574-3593) and mul (3596-3620), numbered 0 to 9; each calls the next one
    for its operands, mul calls cast. ND_SHR and ND_SAR are one operator here. *)
Definition level_ops (l : nat) : list (string * bop) :=
  match l with
  | 0 => [("||", OLOr)]
  | 1 => [("&&", OLAnd)]
  | 2 => [("|", OOr)]
  | 3 => [("^", OXor)]
  | 4 => [("&", OAnd)]
  | 5 => [("==", OEq); ("!=", ONe)]
  | 6 => [("<", OLt); ("<=", OLe); (">", OGt); (">=", OGe)]
  | 7 => [("<<", OShl); (">>", OShr)]
  | 8 => [("+", OAdd); ("-", OSub)]
  | 9 => [("*", OMul); ("/", ODiv); ("%", OMod)]
  | _ => []
  end.
(** parse.c:3293-3324. *)
Definition asg_ops : list (string * option bop) :=
  [("=", None); ("+=", Some OAdd); ("-=", Some OSub); ("*=", Some OMul); ("/=", Some ODiv); ("%=", Some OMod);
   ("&=", Some OAnd); ("|=", Some OOr); ("^=", Some OXor); ("<<=", Some OShl); (">>=", Some OShr)].
(** parse.c:3639-3676. *)
Definition un_ops : list (string * uop) :=
  [("+", UPlus); ("-", UMinus); ("&", UAddr); ("*", UDeref); ("!", UNot); ("~", UCompl)].

(** pointer_qualifiers, parse.c:1183-1196. *)
Fixpoint pointer_qualifiers (q : quals) (toks : list tok) : quals * list tok :=
  match toks with
  | TD (TQual w) :: r => pointer_qualifiers (set_q q w) r
  | _ => (q, toks)
  end.
(** pointers, parse.c:1221-1228. The quals of a pointer are read before the next "*". *)
Fixpoint pointers (T : ctype) (cur : option quals) (toks : list tok) : ctype * list tok :=
  let here := match cur with Some q => CPtr q T | None => T end in
  match toks with
  | TP "*" :: r => pointers here (Some noq) r
  | TD (TQual w) :: r =>
      match cur with Some q => pointers T (Some (set_q q w)) r | None => (here, toks) end
  | _ => (here, toks)
  end.
(** The conversion of parameter types, parse.c:1123-1137. *)
Definition adjust_param (t : ctype) : ctype :=
  match t with
  | CArr q _ e => CPtr q e
  | CFun _ _ => CPtr noq t
  | _ => t
  end.
(** The qualifiers between brackets are put on the array (parse.c:1210-1213). *)
Definition with_quals (q : quals) (t : ctype) : ctype :=
  match t with
  | CArr _ n e => CArr q n e
  | _ => t
  end.

Section Parser.
Variable tdef : string -> option dtype.
Variable c23 : bool.
Variable auty : bool.

(** parse.c:2202-2204. *)
Definition is_typename (toks : list tok) : bool :=
  match toks with
  | [] => false
  | t :: _ => match word tdef t with TStop => false | _ => true end
  end.

(** declspec (DeclModel) without VarAttr: a type and the tokens after it. auto needs an
    initialiser, which is not there. *)
Definition dspec (toks : list tok) : pres (dtype * list tok) :=
  match declspec NoAttr c23 auty Abort (map (word tdef) toks) with
  | Ok (t, _, r) => POk (t, skipn (List.length toks - List.length r) toks)
  | _ => PErr
  end.

(** Member names (struct_ref, parse.c:3917-3940). *)
Definition ident (toks : list tok) : pres (string * list tok) :=
  match toks with TId s :: r => POk (s, r) | _ => PErr end.

Fixpoint expr (f : nat) (toks : list tok) {struct f} : pres (etree * list tok) :=
  (* parse.c:2737-2745 *)
  match f with
  | O => PFuel
  | S f =>
      pdo (a, r) <- assign f toks;
      match punct "," r with
      | Some r => pdo (b, r) <- expr f r; POk (EComma a b, r)
      | None => POk (a, r)
      end
  end
with assign (f : nat) (toks : list tok) {struct f} : pres (etree * list tok) :=
  (* parse.c:3272-3328 *)
  match f with
  | O => PFuel
  | S f =>
      pdo (a, r) <- conditional f toks;
      match find_op asg_ops r with
      | Some (o, r) => pdo (b, r) <- assign f r; POk (EAssign o a b, r)
      | None => POk (a, r)
      end
  end
with conditional (f : nat) (toks : list tok) {struct f} : pres (etree * list tok) :=
  (* parse.c:3331-3369 *)
  match f with
  | O => PFuel
  | S f =>
      pdo (a, r) <- binary f 0 toks;
      match punct "?" r with
      | None => POk (a, r)
      | Some r =>
          match punct ":" r with
          | Some r => pdo (c, r) <- conditional f r; POk (EElvis a c, r)
          | None =>
              pdo (b, r) <- expr f r;
              pdo r <- skip ":" r;
              pdo (c, r) <- conditional f r;
              POk (ECond a b c, r)
          end
      end
  end
with binary (f : nat) (l : nat) (toks : list tok) {struct f} : pres (etree * list tok) :=
  match f with
  | O => PFuel
  | S f =>
      if Nat.eqb l 10 then cast f toks
      else pdo (a, r) <- binary f (S l) toks; binary_loop f l a r
  end
with binary_loop (f : nat) (l : nat) (a : etree) (toks : list tok) {struct f} : pres (etree * list tok) :=
  match f with
  | O => PFuel
  | S f =>
      match find_op (level_ops l) toks with
      | Some (o, r) => pdo (b, r) <- binary f (S l) r; binary_loop f l (EBin o a b) r
      | None => POk (a, toks)
      end
  end
with typename_paren (f : nat) (toks : list tok) {struct f} : pres (option (ctype * list tok)) :=
  (* is_typename_paren, parse.c:2206-2214 *)
  match f with
  | O => PFuel
  | S f =>
      match punct "(" toks with
      | Some r =>
          if is_typename r then
            pdo q <- skip_paren 0 (tl r);
            match punct "{" q with
            | Some _ => POk None
            | None =>
                pdo (t, r) <- typename f r;
                pdo r <- skip ")" r;
                POk (Some (t, r))
            end
          else POk None
      | None => POk None
      end
  end
with cast (f : nat) (toks : list tok) {struct f} : pres (etree * list tok) :=
  (* parse.c:3623-3632 *)
  match f with
  | O => PFuel
  | S f =>
      pdo o <- typename_paren f toks;
      match o with
      | Some (t, r) => pdo (a, r) <- cast f r; POk (ECast t a, r)
      | None => unary f toks
      end
  end
with unary (f : nat) (toks : list tok) {struct f} : pres (etree * list tok) :=
  (* parse.c:3638-3697 *)
  match f with
  | O => PFuel
  | S f =>
      match find_op un_ops toks with
      | Some (u, r) => pdo (a, r) <- cast f r; POk (EUn u a, r)
      | None =>
          match find_op [("++", true); ("--", false)] toks with
          | Some (i, r) => pdo (a, r) <- unary f r; POk (EPre i a, r)
          | None =>
              match punct "&&" toks with
              | Some r => pdo (s, r) <- ident r; POk (ELabel s, r)
              | None => pdo (a, r) <- primary f toks; postfix f a r
              end
          end
      end
  end
with postfix (f : nat) (a : etree) (toks : list tok) {struct f} : pres (etree * list tok) :=
  (* parse.c:3985-4041 *)
  match f with
  | O => PFuel
  | S f =>
      match punct "(" toks with
      | Some r => pdo (bs, r) <- funargs f true r; postfix f (ECall a bs) r
      | None =>
      match punct "[" toks with
      | Some r => pdo (b, r) <- expr f r; pdo r <- skip "]" r; postfix f (EIndex a b) r
      | None =>
      match punct "." toks with
      | Some r => pdo (s, r) <- ident r; postfix f (EDot a s) r
      | None =>
      match punct "->" toks with
      | Some r => pdo (s, r) <- ident r; postfix f (EArrow a s) r
      | None =>
      match find_op [("++", true); ("--", false)] toks with
      | Some (i, r) => postfix f (EPost i a) r
      | None => POk (a, toks)
      end end end end end
  end
with funargs (f : nat) (first : bool) (toks : list tok) {struct f} : pres (list etree * list tok) :=
  (* the loop of funcall, parse.c:4063-4090, with comma_list, 561-576 *)
  match f with
  | O => PFuel
  | S f =>
      match punct ")" toks with
      | Some r => POk ([], r)
      | None =>
          pdo r <- (if first then POk toks else skip "," toks);
          pdo (b, r) <- assign f r;
          pdo (bs, r) <- funargs f false r;
          POk (b :: bs, r)
      end
  end
with primary (f : nat) (toks : list tok) {struct f} : pres (etree * list tok) :=
  (* parse.c:4161-4471 *)
  match f with
  | O => PFuel
  | S f =>
      match toks with
      | TP "(" :: r =>
          if is_typename r then PErr      (* compound literal *)
          else match punct "{" r with
               | Some _ => PErr           (* statement expression *)
               | None => pdo (a, r) <- expr f r; pdo r <- skip ")" r; POk (a, r)
               end
      | TW "sizeof" :: r =>
          pdo o <- typename_paren f r;
          match o with
          | Some (t, r) => POk (ESizeofT t, r)
          | None => pdo (a, r) <- unary f r; POk (ESizeofE a, r)
          end
      | TW "_Alignof" :: r =>
          pdo o <- typename_paren f r;
          match o with
          | Some (t, r) => POk (EAlignT t, r)
          | None => pdo (a, r) <- unary f r; POk (EAlignE a, r)
          end
      | TId s :: r => match tdef s with Some _ => PErr | None => POk (EId s, r) end
      | TNum z :: r => POk (ENum z, r)
      | TStr s :: r => POk (EStr s, r)
      | _ => PErr
      end
  end
with typename (f : nat) (toks : list tok) {struct f} : pres (ctype * list tok) :=
  (* parse.c:1281-1284 *)
  match f with
  | O => PFuel
  | S f =>
      pdo (t, r) <- dspec toks;
      pdo (T, _, r) <- declarator f false (CBase t) r;
      POk (T, r)
  end
with declarator (f : nat) (named : bool) (T : ctype) (toks : list tok) {struct f}
  : pres (ctype * option string * list tok) :=
  (* parse.c:1250-1266 *)
  match f with
  | O => PFuel
  | S f =>
      let '(T, toks) := pointers T None toks in
      match punct "(" toks with
      | Some r =>
          if is_typename r || match punct ")" r with Some _ => true | None => false end
          then pdo (T, r) <- func_params f T r; POk (T, None, r)
          else
            pdo q <- skip_paren 0 r;
            pdo (T, rest) <- type_suffix f T q;
            pdo (T, x, _) <- declarator f named T r;
            POk (T, x, rest)
      | None =>
          let '(x, r) := match toks with
                         | TId s :: r => if named then (Some s, r) else (None, toks)
                         | _ => (None, toks)
                         end in
          pdo (T, r) <- type_suffix f T r;
          POk (T, x, r)
      end
  end
with type_suffix (f : nat) (T : ctype) (toks : list tok) {struct f} : pres (ctype * list tok) :=
  (* parse.c:1201-1218 *)
  match f with
  | O => PFuel
  | S f =>
      match punct "(" toks with
      | Some r => func_params f T r
      | None =>
          match punct "[" toks with
          | Some r =>
              match r with
              | TD _ :: _ =>
                  let '(q, r) := pointer_qualifiers noq r in
                  let r := match r with TD (TStor SStatic) :: r => r | _ => r end in
                  pdo (T, r) <- array_dimensions f T r;
                  POk (with_quals q T, r)
              | _ => array_dimensions f T r
              end
          | None => POk (T, toks)
          end
      end
  end
with array_dimensions (f : nat) (T : ctype) (toks : list tok) {struct f} : pres (ctype * list tok) :=
  (* parse.c:1154-1181 *)
  match f with
  | O => PFuel
  | S f =>
      match match punct "]" toks with
            | Some r => Some r
            | None => match punct "*" toks with Some r => punct "]" r | None => None end
            end with
      | Some r =>
          match punct "[" r with
          | Some r => pdo (T, r) <- array_dimensions f T r; POk (CArr noq None T, r)
          | None => POk (CArr noq None T, r)
          end
      | None =>
          pdo (n, r) <- assign f toks;
          pdo r <- skip "]" r;
          match punct "[" r with
          | Some r => pdo (T, r) <- array_dimensions f T r; POk (CArr noq (Some n) T, r)
          | None => POk (CArr noq (Some n) T, r)
          end
      end
  end
with func_params (f : nat) (T : ctype) (toks : list tok) {struct f} : pres (ctype * list tok) :=
  (* parse.c:1091-1151 *)
  match f with
  | O => PFuel
  | S f =>
      match match punct "..." toks with Some r => punct ")" r | None => None end with
      | Some r => POk (CFun (Some ([], true)) T, r)
      | None =>
      match match toks with TD (TKw KVoid) :: r => punct ")" r | _ => None end with
      | Some r => POk (CFun (Some ([], false)) T, r)
      | None =>
      match punct ")" toks with
      | Some r => POk (CFun (if c23 then Some ([], false) else None) T, r)
      | None =>
          if is_typename toks then
            pdo (ps, v, r) <- params f true toks;
            POk (CFun (Some (ps, v)) T, r)
          else PErr                       (* identifier list *)
      end end end
  end
with params (f : nat) (first : bool) (toks : list tok) {struct f}
  : pres (list (option string * ctype) * bool * list tok) :=
  (* parse.c:1116-1145 *)
  match f with
  | O => PFuel
  | S f =>
      match punct ")" toks with
      | Some r => POk ([], false, r)
      | None =>
          pdo r <- (if first then POk toks else skip "," toks);
          match punct "..." r with
          | Some r => pdo r <- skip ")" r; POk ([], true, r)
          | None =>
              pdo (t, r) <- dspec r;
              pdo (T, x, r) <- declarator f true (CBase t) r;
              pdo (ps, v, r) <- params f false r;
              POk ((x, adjust_param T) :: ps, v, r)
          end
      end
  end.

(** Fuel that is enough for any token list (ExprTotal). *)
Definition fuel (toks : list tok) : nat := List.length toks * 40 + 40.
(** expr(&rest, tok), typename(&rest, tok) and declarator(&rest, tok, ty, &name). *)
Definition parse_expr (toks : list tok) := expr (fuel toks) toks.
Definition parse_typename (toks : list tok) := typename (fuel toks) toks.
Definition parse_declarator (T : ctype) (toks : list tok) := declarator (fuel toks) true T toks.
End Parser.
