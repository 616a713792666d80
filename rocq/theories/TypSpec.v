(** Types of expressions (C23 6.3, 6.5), as a relation, on the types of CompatSpec.v. *)
From Coq Require Import String ZArith List Bool.
From Verif Require Import CompatSpec.
Import ListNotations.
Local Open Scope Z_scope.
Local Open Scope list_scope.

(** * Qualifiers *)
Definition cv (q : quals) : bool := q_const q || q_volatile q.
(** Qualifiers with the const and volatile of [q] added. *)
Definition add_cv (q p : quals) : quals :=
  Quals (q_atomic p) (q_const q || q_const p) (q_volatile q || q_volatile p) (q_restrict p).
Definition no_quals (q : quals) : bool := negb (q_atomic q || q_const q || q_volatile q || q_restrict q).
Definition qunion (p q : quals) : quals :=
  Quals (q_atomic p || q_atomic q) (q_const p || q_const q) (q_volatile p || q_volatile q) (q_restrict p || q_restrict q).
(** The qualifiers of an array are those of its elements (6.7.3). *)
Fixpoint push (q p : quals) (t : ctype) : quals * ctype :=
  match t with
  | CArr n p' u => let '(a, b) := push q p' u in (p, CArr n a b)
  | CVla p' u => let '(a, b) := push q p' u in (p, CVla a b)
  | _ => (add_cv q p, t)
  end.

(** * Arithmetic types (6.3.1) *)
Definition integer (t : ctype) : bool := match t with CBool | CInt _ _ => true | _ => false end.
Definition arith (t : ctype) : bool := match t with CBool | CInt _ _ | CFlo _ => true | _ => false end.
Definition pointer (t : ctype) : bool := match t with CPtr _ _ => true | _ => false end.
Definition scalar (t : ctype) : bool := arith t || pointer t.
Definition array (t : ctype) : bool := match t with CArr _ _ _ | CVla _ _ => true | _ => false end.
Definition func (t : ctype) : bool := match t with CFun _ _ _ => true | _ => false end.
Definition rank (k : ikind) : Z :=
  match k with KPchar | KChar => 1 | KShort => 2 | KInt => 3 | KLong => 4 | KLongLong => 5 end.
Definition bits (k : ikind) : Z :=
  match k with KPchar | KChar => 8 | KShort => 16 | KInt => 32 | KLong | KLongLong => 64 end.
Definition int : ctype := CInt KInt false.
(** Integer promotions: all values fit in int, or in unsigned int; [w]: the width of a bit-field. *)
Definition promo (t : ctype) (w : option Z) : ctype :=
  match t, w with
  | CBool, _ => int
  | CInt k u, Some n =>
      if (n <? 32) || ((n =? 32) && negb u) then int
      else if n =? 32 then CInt KInt true
      else t
  | CInt k u, None => if rank k <? rank KInt then int else t
  | _, _ => t
  end.
Definition frank (k : fkind) : Z := match k with KFloat => 1 | KDouble => 2 | KLdouble => 3 end.
(** Usual arithmetic conversions of promoted types. *)
Definition uac (s t : ctype) : option ctype :=
  match s, t with
  | CFlo a, CFlo b => Some (CFlo (if frank a <? frank b then b else a))
  | CFlo a, (CBool | CInt _ _) | (CBool | CInt _ _), CFlo a => Some (CFlo a)
  | CInt a u, CInt b v =>
      if Bool.eqb u v then Some (CInt (if rank a <? rank b then b else a) u)
      else
        let '(su, un) := if u then (b, a) else (a, b) in      (* the signed and the unsigned one *)
        if rank su <=? rank un then Some (CInt un true)
        else if bits un <? bits su then Some (CInt su false)
        else Some (CInt su true)
  | _, _ => None
  end.

(** * Composite types (6.2.7) *)
Fixpoint composite (s t : ctype) : ctype :=
  match s, t with
  | CPtr q a, CPtr _ b => CPtr q (composite a b)
  | CArr m q a, CArr n _ b => CArr (match m with Some _ => m | None => n end) q (composite a b)
  | CVla q a, CArr (Some n) _ b => CArr (Some n) q (composite a b)
  | CArr None q a, CVla _ b => CVla q (composite a b)
  | CArr (Some n) q a, CVla _ b => CArr (Some n) q (composite a b)
  | CVla q a, CVla _ b => CVla q (composite a b)
  | CFun r v l, CFun r' _ l' =>
      CFun (composite r r') v
        ((fix go (l l' : list (quals * ctype)) : list (quals * ctype) :=
            match l, l' with
            | (q, a) :: m, (_, b) :: m' => (q, composite a b) :: go m m'
            | _, _ => []
            end) l l')
  | _, _ => s
  end.

(** * Expressions *)
Inductive bop := OAdd | OSub | OMul | ODiv | OMod | OAnd | OXor | OOr | OShl | OShr | OLt | OGt | OLe | OGe | OEq | ONe | OLand | OLor.
Inductive uop := UPos | UNeg | UCompl | UNot.
Inductive cx :=
| XConst (t : ctype) (v : Z)                  (* a number *)
| XStr (k : ikind) (u : bool) (n : Z)         (* a string literal *)
| XVar (q : quals) (t : ctype)                (* an object or function declared with this type *)
| XMember (e : cx) (s : string)
| XArrow (e : cx) (s : string)
| XIdx (a b : cx)
| XCall (f : cx) (l : list cx)
| XPost (e : cx) | XPre (e : cx)              (* ++ and -- *)
| XAddr (e : cx) | XDeref (e : cx)
| XUn (o : uop) (e : cx)
| XSizeof (e : cx)
| XCast (q : quals) (t : ctype) (e : cx)
| XBin (o : bop) (a b : cx)
| XCond (c a b : cx)
| XAssign (o : option bop) (a b : cx)
| XComma (a b : cx)
| XGeneric (c : cx) (l : list (option (quals * ctype) * cx)).

(** Widths of bit-fields (6.7.2.1). *)
Definition fits (t : ctype) (w : option Z) : bool :=
  match w, t with
  | None, _ => true
  | Some n, CBool => (0 <=? n) && (n <=? 1)
  | Some n, CInt k _ => (0 <=? n) && (n <=? bits k)
  | Some _, _ => false
  end.
(** Members of structures and unions: [Anon] an unnamed structure or union with its members. *)
Inductive mem := Named (s : string) (q : quals) (t : ctype) (w : option Z) | Anon (q : quals) (i : Z) (l : list mem).
(** [is_member l s a p (q, t, w)]: [s] is a member of type [q] [t], bit-field of width [w]; [a]: it is
    in unnamed structures, which have the qualifiers [p]. *)
Inductive is_member : list mem -> string -> bool -> quals -> quals * ctype * option Z -> Prop :=
| mem_named : forall l s q t w, In (Named s q t w) l -> fits t w = true -> func t = false -> is_member l s false noq (q, t, w)
| mem_anon : forall l q i m s a p f, In (Anon q i m) l -> is_member m s a p f -> is_member l s true (add_cv q p) f.
Fixpoint names (m : mem) : list string :=
  match m with Named s _ _ _ => [s] | Anon _ _ l => flat_map names l end.

(** What C says of an expression: whether it is an lvalue or a function designator, its type (with
    qualifiers only then), the width if it is a bit-field, and whether it is a null pointer
    constant. *)
Record sty := St { lv : bool; sq : quals; st : ctype; sbf : option Z; snull : bool }.

Section Typing.
(** The members of structures and unions, those which are complete, and whether an integer
    expression is a constant expression of value 0. *)
Variable members : Z -> list mem.
Variable defined : Z -> bool.
Variable zero : cx -> bool.
(** [ext]: with the expressions for which the compiler finds another type. *)
Variable ext : bool.
Definition only (b : bool) : Prop := ext = true \/ b = true.

(** Complete object types. *)
Fixpoint object (t : ctype) : bool :=
  match t with
  | CVoid | CFun _ _ _ | CArr None _ _ => false
  | CRec i => defined i
  | CArr (Some n) _ u => (0 <=? n) && object u
  | CVla _ u => object u
  | _ => true
  end.

(** Lvalues, arrays and function designators as operands (6.3.2.1). *)
Definition value (s : sty) : ctype :=
  match st s with
  | CArr _ p t | CVla p t => let '(a, b) := push (sq s) p t in CPtr a b
  | CFun _ _ _ => CPtr noq (st s)
  | t => t
  end.
(** What & of it points to. *)
Definition pointee (s : sty) : quals * ctype := if array (st s) then push (sq s) noq (st s) else (sq s, st s).
Definition plain_value (s : sty) : Prop := only (negb (array (st s) && cv (sq s))).
Definition rvalue (t : ctype) (w : option Z) (null : bool) : sty := St false noq t w null.
(** An operand of arithmetic type, promoted. *)
Definition num (s : sty) : ctype := promo (st s) (sbf s).

(** Simple assignment of the value [s] to an object of type [t] (6.5.16.1). *)
Inductive assignable (t : ctype) (s : sty) : Prop :=
| as_arith : arith t = true -> arith (value s) = true -> assignable t s
| as_rec : forall i, t = CRec i -> value s = CRec i -> assignable t s
| as_ptr : forall q a p b, t = CPtr q a -> value s = CPtr p b -> qunion q p = q ->
    compat a b \/ a = CVoid \/ b = CVoid -> assignable t s
| as_null : forall q a, t = CPtr q a -> snull s = true -> assignable t s
| as_bool : forall q a, t = CBool -> value s = CPtr q a -> assignable t s.

(** Operators on two values, other than assignment: the type of the result. *)
Inductive binary : bop -> sty -> sty -> ctype -> Prop :=
| b_arith : forall o a b t, In o [OAdd; OSub; OMul; ODiv] -> arith (st a) = true -> arith (st b) = true ->
    uac (num a) (num b) = Some t -> binary o a b t
| b_int : forall o a b t, In o [OMod; OAnd; OXor; OOr] -> integer (st a) = true -> integer (st b) = true ->
    uac (num a) (num b) = Some t -> binary o a b t
| b_shift : forall o a b, In o [OShl; OShr] -> integer (st a) = true -> integer (st b) = true -> binary o a b (num a)
| b_ptr_int : forall o a b q t, In o [OAdd; OSub] -> value a = CPtr q t -> plain_value a -> object t = true ->
    integer (st b) = true -> binary o a b (CPtr q t)
| b_int_ptr : forall a b q t, integer (st a) = true -> value b = CPtr q t -> plain_value b -> object t = true ->
    binary OAdd a b (CPtr q t)
| b_ptr_ptr : forall a b q t p u, value a = CPtr q t -> value b = CPtr p u -> compat t u -> object t = true ->
    binary OSub a b (CInt KLong false)
| b_cmp_arith : forall o a b, In o [OLt; OGt; OLe; OGe; OEq; ONe] -> arith (st a) = true -> arith (st b) = true -> binary o a b int
| b_cmp_ptr : forall o a b q t p u, In o [OLt; OGt; OLe; OGe; OEq; ONe] -> value a = CPtr q t -> value b = CPtr p u ->
    compat t u -> binary o a b int
| b_eq_void : forall o a b q t p u, In o [OEq; ONe] -> value a = CPtr q t -> value b = CPtr p u -> t = CVoid \/ u = CVoid -> binary o a b int
| b_eq_null_r : forall o a b q t, In o [OEq; ONe] -> value a = CPtr q t -> snull b = true -> binary o a b int
| b_eq_null_l : forall o a b q t, In o [OEq; ONe] -> snull a = true -> value b = CPtr q t -> binary o a b int
| b_log : forall o a b, In o [OLand; OLor] -> scalar (value a) = true -> scalar (value b) = true -> binary o a b int.

(** The result of ?: (6.5.15). *)
Inductive choice : sty -> sty -> ctype -> Prop :=
| c_arith : forall a b t, arith (st a) = true -> arith (st b) = true -> uac (num a) (num b) = Some t -> choice a b t
| c_rec : forall a b i, st a = CRec i -> st b = CRec i -> choice a b (CRec i)
| c_void : forall a b, st a = CVoid -> st b = CVoid -> choice a b CVoid
| c_ptr : forall a b q t p u, value a = CPtr q t -> value b = CPtr p u -> snull a = false -> snull b = false -> compat t u ->
    plain_value a -> plain_value b -> only (negb (func (st a) && func (st b))) ->
    ext = true \/ (qunion q p = q /\ composite t u = t) -> choice a b (CPtr (qunion q p) (composite t u))
| c_null_r : forall a b q t, value a = CPtr q t -> snull b = true -> plain_value a -> choice a b (CPtr q t)
| c_null_l : forall a b q t, snull a = true -> value b = CPtr q t -> plain_value b -> choice a b (CPtr q t)
| c_ptr_void : forall a b q t p u, value a = CPtr q t -> value b = CPtr p u -> snull a = false -> snull b = false ->
    (t = CVoid /\ u <> CVoid) \/ (t <> CVoid /\ u = CVoid) -> func t = false -> func u = false ->
    ext = true \/ qunion q p = noq -> choice a b (CPtr (qunion q p) CVoid).

(** The object an assignment or ++ changes. *)
Definition modifiable (s : sty) : Prop :=
  lv s = true /\ q_const (sq s) = false /\ object (st s) = true /\ array (st s) = false /\
  (q_atomic (sq s) = true -> sbf s = None).
Definition steps (s : sty) : Prop :=
  arith (st s) = true \/ exists q t, st s = CPtr q t /\ object t = true.

(** Compound assignment (6.5.16.2). *)
Inductive compound : bop -> sty -> sty -> Prop :=
| k_arith : forall o a b, In o [OAdd; OSub; OMul; ODiv] -> arith (st a) = true -> arith (st b) = true -> compound o a b
| k_int : forall o a b, In o [OMod; OAnd; OXor; OOr; OShl; OShr] -> integer (st a) = true -> integer (st b) = true -> compound o a b
| k_ptr : forall o a b q t, In o [OAdd; OSub] -> st a = CPtr q t -> object t = true -> integer (st b) = true -> compound o a b.

(** Casts (6.5.4): anything to void, and scalars to scalars but not pointers to or from floating. *)
Definition castable (t : ctype) (s : sty) : Prop :=
  t = CVoid \/
  (scalar t = true /\ scalar (value s) = true /\
   match t, value s with CFlo _, CPtr _ _ | CPtr _ _, CFlo _ => False | _, _ => True end).

Inductive typed : cx -> sty -> Prop :=
| t_const : forall t v, arith t = true -> typed (XConst t v) (rvalue t None (integer t && zero (XConst t v)))
| t_str : forall k u n, typed (XStr k u n) (St true noq (CArr (Some n) noq (CInt k u)) None false)
| t_var : forall q t, (func t = true -> q = noq) -> typed (XVar q t) (St true q t None (integer t && zero (XVar q t)))
| t_member : forall e s a i n p q t w, typed e a -> st a = CRec i -> is_member (members i) s n p (q, t, w) ->
    only (negb (array t) || lv a) -> only (negb (cv (add_cv (sq a) p) && (n || q_atomic q || q_restrict q))) ->
    typed (XMember e s) (St (lv a) (if lv a then add_cv (add_cv (sq a) p) q else noq) t w (integer t && zero (XMember e s)))
| t_arrow : forall e s a r i n p q t w, typed e a -> value a = CPtr r (CRec i) -> is_member (members i) s n p (q, t, w) ->
    only (negb (cv (add_cv r p) && (n || q_atomic q || q_restrict q))) ->
    typed (XArrow e s) (St true (add_cv (add_cv r p) q) t w (integer t && zero (XArrow e s)))
| t_idx : forall e i a b q t, typed e a -> typed i b -> value a = CPtr q t -> integer (st b) = true -> object t = true ->
    only (negb (array (st a) && cv (sq a) && (array t || q_atomic q || q_restrict q))) ->
    typed (XIdx e i) (St true q t None (integer t && zero (XIdx e i)))
| t_xdi : forall i e b a q t, typed i b -> typed e a -> integer (st b) = true -> value a = CPtr q t -> object t = true ->
    plain_value a -> typed (XIdx i e) (St true q t None (integer t && zero (XIdx i e)))
| t_call : forall f l a q r v ps, typed f a -> value a = CPtr q (CFun r v ps) -> array (st a) = false -> array r = false -> func r = false ->
    arguments v ps l ->
    typed (XCall f l) (rvalue r None (integer r && zero (XCall f l)))
| t_post : forall e a, typed e a -> modifiable a -> steps a ->
    typed (XPost e) (rvalue (st a) (sbf a) (integer (st a) && zero (XPost e)))
| t_pre : forall e a, typed e a -> modifiable a -> steps a ->
    typed (XPre e) (rvalue (st a) (sbf a) (integer (st a) && zero (XPre e)))
| t_addr : forall e a, typed e a -> lv a = true -> sbf a = None -> plain_value a ->
    (array (st a) = true -> q_atomic (sq a) = false /\ q_restrict (sq a) = false) ->
    typed (XAddr e) (rvalue (CPtr (fst (pointee a)) (snd (pointee a))) None false)
| t_deref : forall e a q t, typed e a -> value a = CPtr q t -> t <> CVoid -> (func t = true -> q = noq) ->
    only (negb (array (st a) && cv (sq a) && (array t || q_atomic q || q_restrict q))) ->
    typed (XDeref e) (St true q t None (integer t && zero (XDeref e)))
| t_plus : forall o e a, In o [UPos; UNeg] -> typed e a -> arith (st a) = true ->
    typed (XUn o e) (rvalue (num a) None (integer (num a) && zero (XUn o e)))
| t_compl : forall e a, typed e a -> integer (st a) = true ->
    typed (XUn UCompl e) (rvalue (num a) None (integer (num a) && zero (XUn UCompl e)))
| t_not : forall e a, typed e a -> scalar (value a) = true -> typed (XUn UNot e) (rvalue int None (zero (XUn UNot e)))
| t_sizeof : forall e a, typed e a -> object (st a) = true -> sbf a = None ->
    typed (XSizeof e) (rvalue (CInt KLong true) None (zero (XSizeof e)))
| t_cast : forall q t e a, typed e a -> castable t a ->
    only (lv a || match sbf a with None => true | Some _ => false end) ->
    only (negb (match t with CPtr p CVoid => negb (no_quals p) && snull a && integer (st a) | _ => false end)) ->
    typed (XCast q t e) (rvalue t None (match t with
                                        | CPtr p CVoid => no_quals p && snull a && integer (st a)
                                        | _ => integer t && zero (XCast q t e)
                                        end))
| t_bin : forall o x y a b t, typed x a -> typed y b -> binary o a b t ->
    typed (XBin o x y) (rvalue t None (integer t && zero (XBin o x y)))
| t_cond : forall z x y c a b t, typed z c -> typed x a -> typed y b -> scalar (value c) = true -> choice a b t ->
    typed (XCond z x y) (rvalue t None (integer t && zero (XCond z x y)))
| t_assign : forall x y a b, typed x a -> typed y b -> modifiable a -> only (negb (q_atomic (sq a))) -> assignable (st a) b ->
    typed (XAssign None x y) (rvalue (st a) (sbf a) (integer (st a) && zero (XAssign None x y)))
| t_assign_op : forall o x y a b, typed x a -> typed y b -> modifiable a -> compound o a b ->
    typed (XAssign (Some o) x y) (rvalue (st a) (sbf a) (integer (st a) && zero (XAssign (Some o) x y)))
| t_comma : forall x y a b, typed x a -> typed y b -> plain_value b -> only (negb (func (st b))) ->
    typed (XComma x y) (rvalue (value b) (sbf b) (integer (value b) && zero (XComma x y)))
| t_generic : forall c l a s, typed c a -> plain_value a -> ext = true \/ plain (value a) -> chosen (value a) l s -> associations l ->
    typed (XGeneric c l) s
with arguments : bool -> list (quals * ctype) -> list cx -> Prop :=
| args_nil : forall v, arguments v [] []
| args_more : forall e a l, typed e a -> scalar (value a) = true \/ (exists i, st a = CRec i) -> arguments true [] l -> arguments true [] (e :: l)
| args_cons : forall v q t ps e a l, typed e a -> assignable t a -> arguments v ps l -> arguments v ((q, t) :: ps) (e :: l)
(** The association with a compatible type, or the default. *)
with chosen : ctype -> list (option (quals * ctype) * cx) -> sty -> Prop :=
| ch_type : forall T l1 t e l2 s, typed e s -> compat T t ->
    (forall q u x, In (Some (q, u), x) (l1 ++ l2) -> ~ (q = noq /\ compat T u)) ->
    chosen T (l1 ++ (Some (noq, t), e) :: l2) s
| ch_default : forall T l1 e l2 s, typed e s -> (forall q u x, In (Some (q, u), x) (l1 ++ l2) -> ~ (q = noq /\ compat T u)) ->
    (forall x, ~ In (None, x) l1) -> chosen T (l1 ++ (None, e) :: l2) s
with associations : list (option (quals * ctype) * cx) -> Prop :=
| ass_nil : associations []
| ass_cons : forall t e s l, typed e s -> match t with Some (_, u) => func u = false /\ (ext = true \/ plain u) | None => True end ->
    associations l -> associations ((t, e) :: l).
End Typing.
