(** Expressions for the examples and refutations of C59. *)
From Coq Require Import String ZArith List Bool.
From Verif Require Import CompatSpec TypSpec.
Import ListNotations.
Local Open Scope string_scope.
Local Open Scope Z_scope.
Local Open Scope list_scope.

Definition qconst := Quals false true false false.
Definition qvolatile := Quals false false true false.
Definition qatomic := Quals true false false false.
Definition long := CInt KLong false.
Definition dbl := CFlo KDouble.

(** struct 1 { int a[4]; unsigned f : 3; struct { int n; }; _Atomic int t; struct 1 *next; }; struct 2 is
    incomplete. *)
Definition ms (i : Z) : list mem :=
  if i =? 1 then
    [Named "a" noq (CArr (Some 4) noq int) None; Named "f" noq (CInt KInt true) (Some 3);
     Anon noq 3 [Named "n" noq int None]; Named "t" qatomic int None; Named "next" noq (CPtr noq (CRec 1)) None]
  else if i =? 3 then [Named "n" noq int None]
  else [].
Definition known (i : Z) : bool := (i =? 1) || (i =? 3).
Definition sizes (i : Z) : Z := if i =? 1 then 40 else if i =? 3 then 4 else -1.
(** Numbers, and casts of numbers to integer types. *)
Fixpoint z0 (e : cx) : bool :=
  match e with XConst _ v => v =? 0 | XCast _ (CInt _ _) e => z0 e | _ => false end.

Definition num0 := XConst int 0.
Definition v_int := XVar noq int.
Definition v_s := XVar noq (CRec 1).
Definition v_cs := XVar qconst (CRec 1).
Definition v_p := XVar noq (CPtr noq int).
Definition v_cp := XVar noq (CPtr qconst int).
Definition v_ps := XVar noq (CPtr qconst (CRec 1)).
Definition v_f := XVar noq (CFun int false [(noq, long)]).

(** v_ps->next->a[v_int ? 1 : 'c'] += s.f << 2 *)
Definition e_good : cx :=
  XAssign (Some OAdd) (XIdx (XMember (XDeref (XArrow v_ps "next")) "a") (XCond v_int (XConst int 1) (XConst (CInt KPchar false) 99)))
    (XBin OShl (XMember v_s "f") (XConst int 2)).
(** _Generic(c ? p : 0, const int * : 1, int * : (f)(s.f + 1L), default : 2.0) *)
Definition e_gen : cx :=
  XGeneric (XCond v_int v_p num0)
    [(None, XConst dbl 2); (Some (noq, CPtr qconst int), XConst int 1);
     (Some (noq, CPtr noq int), XCall v_f [XBin OAdd (XMember v_s "f") (XConst long 1)])].

(** c ? p : cp *)
Definition e_cond := XCond v_int v_p v_cp.
(** c ? f : f and (0, f) *)
Definition e_fcond := XCond v_int v_f v_f.
Definition e_fcomma := XComma num0 v_f.
(** _Generic(cs.a, int * : 1, const int * : 2.0) *)
Definition e_decay := XGeneric (XMember v_cs "a") [(Some (noq, CPtr noq int), XConst int 1); (Some (noq, CPtr qconst int), XConst dbl 2)].
(** &cs.n *)
Definition e_anon := XAddr (XMember v_cs "n").
(** the member t of a volatile object *)
Definition e_atomic := XMember (XVar qvolatile (CRec 1)) "t".
(** c ? (const void * )0 : p *)
Definition e_null := XCond v_int (XCast noq (CPtr qconst CVoid) num0) v_p.
(** x = 1 for an _Atomic long *)
Definition e_exch := XAssign None (XVar qatomic long) (XConst int 1).
(** 1.5 & 2 and an incomplete structure: p + 1 *)
Definition e_fand := XBin OAnd (XConst dbl 1) (XConst int 2).
Definition e_inc := XBin OAdd (XVar noq (CPtr noq (CRec 2))) (XConst int 1).
