(** Specification of C statements over integer variables (ISO C11 6.5.2.4, 6.5.16, 6.8),
    independent of the model. *)
From Coq Require Import ZArith List Bool.
From Verif Require Import IntSpec.
Import ListNotations.
Local Open Scope Z_scope.

(** Operators of compound assignments. *)
Inductive aop := ABin (o : binop) | AShl | AShr.

(** Expressions evaluated for their effects. [XPre] and [XPost] are ++ (true) and -- (false)
    before and after a variable. *)
Inductive eff :=
| XNone
| XE (e : exp)
| XSet (t : ityp) (x : nat) (e : exp)
| XOp (o : aop) (t : ityp) (x : nat) (e : exp)
| XPre (inc : bool) (t : ityp) (x : nat)
| XPost (inc : bool) (t : ityp) (x : nat)
| XSeq (a b : eff).

(** Statements. [SSeq] is a block of two statements; a while loop is a for loop without
    initialisation and increment. *)
Inductive stmt :=
| SSkip
| SExpr (x : eff)
| SSeq (a b : stmt)
| SIf (c : exp) (a : stmt)
| SIfElse (c : exp) (a b : stmt)
| SFor (init : eff) (c : option exp) (inc : eff) (body : stmt)
| SDo (body : stmt) (c : exp)
| SBreak
| SContinue
| SReturn (e : option exp).

(** How a statement ends. *)
Inductive ending := Normal | Break | Continue | Return (v : option Z).

Definition assign (env : nat -> Z) (x : nat) (v : Z) : nat -> Z :=
  fun y => if Nat.eqb y x then v else env y.

(** E1 op E2 in E1 op= E2 (6.5.16.2p3). *)
Definition aexp (o : aop) (a b : exp) : exp :=
  match o with ABin b' => EBin b' a b | AShl => EShl a b | AShr => EShr a b end.

Definition set_to (env : nat -> Z) (t : ityp) (x : nat) (v : option Z) : option (nat -> Z) :=
  match v with Some z => Some (assign env x (conv t z)) | None => None end.

(** Values of the variables after an effect; [None] is undefined behaviour. *)
Fixpoint effect (env : nat -> Z) (a : eff) : option (nat -> Z) :=
  match a with
  | XNone => Some env
  | XE e => match ceval env e with Some _ => Some env | None => None end
  | XSet t x e => set_to env t x (ceval env e)
  | XOp o t x e => set_to env t x (ceval env (aexp o (EVar t x) e))
  | XPre inc t x | XPost inc t x =>
      set_to env t x (ceval env (EBin (if inc then BAdd else BSub) (EVar t x) (ENum TInt 1)))
  | XSeq a b => match effect env a with Some env1 => effect env1 b | None => None end
  end.

(** A controlling expression: absent means true (6.8.5.3p2). *)
Definition controls (env : nat -> Z) (c : option exp) : option bool :=
  match c with
  | None => Some true
  | Some e => match ceval env e with Some v => Some (negb (v =? 0)) | None => None end
  end.

(** The next iteration is reached when the body ends normally or by continue. *)
Definition goes_on (o : ending) : Prop := o = Normal \/ o = Continue.

Section Exec.
  (** Return type of the function. *)
  Variable rt : ityp.

  Inductive exec : (nat -> Z) -> stmt -> (nat -> Z) -> ending -> Prop :=
  | ex_skip : forall env, exec env SSkip env Normal
  | ex_expr : forall env a env', effect env a = Some env' -> exec env (SExpr a) env' Normal
  | ex_seq : forall env a b env1 env2 o, exec env a env1 Normal -> exec env1 b env2 o ->
      exec env (SSeq a b) env2 o
  | ex_seq_end : forall env a b env1 o, exec env a env1 o -> o <> Normal ->
      exec env (SSeq a b) env1 o
  | ex_if : forall env c a v env1 o, ceval env c = Some v -> v <> 0 -> exec env a env1 o ->
      exec env (SIf c a) env1 o
  | ex_if_not : forall env c a, ceval env c = Some 0 -> exec env (SIf c a) env Normal
  | ex_then : forall env c a b v env1 o, ceval env c = Some v -> v <> 0 -> exec env a env1 o ->
      exec env (SIfElse c a b) env1 o
  | ex_else : forall env c a b env1 o, ceval env c = Some 0 -> exec env b env1 o ->
      exec env (SIfElse c a b) env1 o
  | ex_for : forall env i c inc body env1 env2 o, effect env i = Some env1 ->
      loop env1 c inc body env2 o -> exec env (SFor i c inc body) env2 o
  | ex_do_break : forall env body c env1, exec env body env1 Break ->
      exec env (SDo body c) env1 Normal
  | ex_do_return : forall env body c env1 v, exec env body env1 (Return v) ->
      exec env (SDo body c) env1 (Return v)
  | ex_do_end : forall env body c env1 o, exec env body env1 o -> goes_on o ->
      ceval env1 c = Some 0 -> exec env (SDo body c) env1 Normal
  | ex_do_again : forall env body c env1 o v env2 o', exec env body env1 o -> goes_on o ->
      ceval env1 c = Some v -> v <> 0 -> exec env1 (SDo body c) env2 o' ->
      exec env (SDo body c) env2 o'
  | ex_break : forall env, exec env SBreak env Break
  | ex_continue : forall env, exec env SContinue env Continue
  | ex_return : forall env, exec env (SReturn None) env (Return None)
  | ex_return_v : forall env e v, ceval env e = Some v ->
      exec env (SReturn (Some e)) env (Return (Some (conv rt v)))
  (** Iterations of a for loop (6.8.5.3). *)
  with loop : (nat -> Z) -> option exp -> eff -> stmt -> (nat -> Z) -> ending -> Prop :=
  | lp_end : forall env c inc body, controls env c = Some false ->
      loop env c inc body env Normal
  | lp_break : forall env c inc body env1, controls env c = Some true ->
      exec env body env1 Break -> loop env c inc body env1 Normal
  | lp_return : forall env c inc body env1 v, controls env c = Some true ->
      exec env body env1 (Return v) -> loop env c inc body env1 (Return v)
  | lp_again : forall env c inc body env1 o env2 env3 o', controls env c = Some true ->
      exec env body env1 o -> goes_on o -> effect env1 inc = Some env2 ->
      loop env2 c inc body env3 o' -> loop env c inc body env3 o'.
End Exec.

(** Static conditions: expressions use declared variables and literals of their type. *)
Section Uses.
  Variable V : list (ityp * nat).

  Fixpoint uses (e : exp) : Prop :=
    match e with
    | ENum t z => in_range t z
    | EVar t x => In (t, x) V
    | EField _ _ _ _ => False
    | EUn _ a | ECast _ a => uses a
    | EBin _ a b | EShl a b | EShr a b | ECmp _ a b | ELAnd a b | ELOr a b | EComma a b =>
        uses a /\ uses b
    | ECond c a b => uses c /\ uses a /\ uses b
    end.

  (** Variables assigned to satisfy [w] (are not constant objects). *)
  Variable w : nat -> Prop.

  Fixpoint uses_eff (a : eff) : Prop :=
    match a with
    | XNone => True
    | XE e => uses e
    | XSet t x e | XOp _ t x e => In (t, x) V /\ w x /\ uses e
    | XPre _ t x | XPost _ t x => In (t, x) V /\ w x
    | XSeq a b => uses_eff a /\ uses_eff b
    end.

  Fixpoint uses_stmt (s : stmt) : Prop :=
    match s with
    | SSkip | SBreak | SContinue | SReturn None => True
    | SExpr a => uses_eff a
    | SSeq a b => uses_stmt a /\ uses_stmt b
    | SIf c a => uses c /\ uses_stmt a
    | SIfElse c a b => uses c /\ uses_stmt a /\ uses_stmt b
    | SFor i c n b => uses_eff i /\ match c with Some e => uses e | None => True end /\
                      uses_eff n /\ uses_stmt b
    | SDo b c => uses_stmt b /\ uses c
    | SReturn (Some e) => uses e
    end.
End Uses.
