(** C56 and C57: the parser of expressions, type names and declarators. *)
From Coq Require Import String ZArith List Bool Lia.
From Verif Require Import Base DeclSpec DeclModel ExprSpec ExprModel ExprProofs.
Import ListNotations.
Local Open Scope string_scope.
Local Open Scope list_scope.

(** C56: an expression of the C grammar is parsed, up to its end, to the tree it stands for. *)
Theorem C56_expressions_parsed : forall tdef c23 auty ts a rest,
  ex tdef c23 false Expr ts a -> after_expr rest ->
  parse_expr tdef c23 auty (ts ++ rest) = POk (a, rest).
Proof. exact expr_parsed. Qed.
Print Assumptions C56_expressions_parsed.

(** The grammar gives a text one tree at most. *)
Theorem C56_expressions_unambiguous : forall tdef c23 ts a b,
  ex tdef c23 false Expr ts a -> ex tdef c23 false Expr ts b -> a = b.
Proof. exact expr_one. Qed.
Print Assumptions C56_expressions_unambiguous.

(** In a text that names no types, what is accepted is a phrase standing for the tree built, of the
    grammar with any conditional expression left of "=" and postfix operators after sizeof. *)
Theorem C56_accepted_expressions : forall tdef c23 auty toks a rest,
  no_types tdef toks -> parse_expr tdef c23 auty toks = POk (a, rest) ->
  exists ts, toks = ts ++ rest /\ ex tdef c23 true Expr ts a.
Proof. exact expr_sound. Qed.
Print Assumptions C56_accepted_expressions.

(** The parser always ends. *)
Theorem C56_parser_ends : forall tdef c23 auty toks,
  parse_expr tdef c23 auty toks <> PFuel /\ parse_typename tdef c23 auty toks <> PFuel /\
  (forall T, parse_declarator tdef c23 auty T toks <> PFuel).
Proof.
  intros tdef c23 auty toks.
  exact (conj (expr_total tdef c23 auty toks) (conj (typename_total tdef c23 auty toks)
    (fun T => declarator_total tdef c23 auty T toks))).
Qed.
Print Assumptions C56_parser_ends.

(** With type names, more is accepted: ( int ( ] ) ) 0 is a cast of 0 to int. *)
Theorem C56_accepted_with_types_refuted : ~ (forall tdef c23 auty toks a rest,
  parse_expr tdef c23 auty toks = POk (a, rest) ->
  exists ts, toks = ts ++ rest /\ ex tdef c23 true Expr ts a).
Proof.
  intros H. destruct (junk_in_cast (fun _ => None) false false) as [E N].
  destruct (H _ _ _ _ _ _ E) as (ts & T & X). rewrite app_nil_r in T. subst ts. exact (N _ _ X).
Qed.
Print Assumptions C56_accepted_with_types_refuted.

(** C57: declarators are parsed to the name and the type they declare. *)
Theorem C57_declarators_parsed : forall tdef c23 auty k T ts x T' rest,
  decl tdef c23 false k T ts x T' -> after_decl rest ->
  parse_declarator tdef c23 auty T (ts ++ rest) = POk (T', x, rest).
Proof. exact declarator_parsed. Qed.
Print Assumptions C57_declarators_parsed.

Theorem C57_type_names_parsed : forall tdef c23 auty ts t rest,
  tyname tdef c23 false ts t ->
  parse_typename tdef c23 auty (ts ++ TP ")" :: rest) = POk (t, TP ")" :: rest).
Proof. exact typename_parsed. Qed.
Print Assumptions C57_type_names_parsed.

(** The grammar gives a declarator one name and one type. *)
Theorem C57_declarators_unambiguous : forall tdef c23 k k' T ts x T1 y T2,
  decl tdef c23 false k T ts x T1 -> decl tdef c23 false k' T ts y T2 -> x = y /\ T1 = T2.
Proof. exact declarator_one. Qed.
Print Assumptions C57_declarators_unambiguous.

(** 6.7.6.2: qualifiers may stand after static. They are taken for the start of the bound. *)
Theorem C57_static_then_qualifiers_refuted : ~ (forall tdef c23 auty T s qs us a,
  ex tdef c23 false Asg us a ->
  parse_declarator tdef c23 auty T (TId s :: TP "[" :: TD (TStor SStatic) :: qwords qs ++ us ++ [TP "]"]) =
    POk (CArr (qset qs) (Some a) T, Some s, [])).
Proof.
  intros H.
  specialize (H (fun _ => None) false false (CBase (mkt (Basic BInt) noq)) "x" [QConst] [TNum 3] (ENum 3) (num_asg _ _ _ 3)).
  pose proof (static_const (fun _ => None) false false (CBase (mkt (Basic BInt) noq))) as E.
  pose proof (eq_trans (eq_sym E) H) as X. discriminate X.
Qed.
Print Assumptions C57_static_then_qualifiers_refuted.

(** A typedef name may be declared anew in an inner scope, also in parentheses: int (t). It is taken
    for the parameter of a function. *)
Theorem C57_typedef_name_in_parentheses_refuted : ~ (forall tdef c23 auty T s,
  parse_declarator tdef c23 auty T [TP "("; TId s; TP ")"; TP ";"] = POk (T, Some s, [TP ";"])).
Proof.
  intros H. specialize (H (fun _ => Some (mkt (Basic BInt) noq)) false false (CBase (mkt (Basic BChar) noq)) "t").
  vm_compute in H. discriminate H.
Qed.
Print Assumptions C57_typedef_name_in_parentheses_refuted.

(** x = a - b - c * (int * ) p[1] *)
Example C56_example :
  let t := CPtr noq (CBase (mkt (Basic BInt) noq)) in
  let toks := [TId "x"; TP "="; TId "a"; TP "-"; TId "b"; TP "-"; TId "c"; TP "*";
               TP "("; TD (TKw KInt); TP "*"; TP ")"; TId "p"; TP "["; TNum 1; TP "]"] in
  let a := EAssign None (EId "x") (EBin OSub (EBin OSub (EId "a") (EId "b"))
             (EBin OMul (EId "c") (ECast t (EIndex (EId "p") (ENum 1))))) in
  ex (fun _ => None) false false Expr toks a /\
  parse_expr (fun _ => None) false false (toks ++ [TP ";"]) = POk (a, [TP ";"]).
Proof.
  assert (D : ex (fun _ => None) false false Expr
    ([TId "x"] ++ TP "=" :: ([TId "a"] ++ TP "-" :: [TId "b"]) ++ TP "-" :: [TId "c"] ++ TP "*" ::
     TP "(" :: ([TD (TKw KInt)] ++ TP "*" :: qwords [] ++ []) ++ TP ")" :: [TId "p"] ++ TP "[" :: [TNum 1] ++ [TP "]"])
    (EAssign None (EId "x") (EBin OSub (EBin OSub (EId "a") (EId "b"))
       (EBin OMul (EId "c") (ECast (CPtr noq (CBase (mkt (Basic BInt) noq))) (EIndex (EId "p") (ENum 1))))))).
  { apply ex_expr0, ex_asg; [cbn; tauto | apply up_id; reflexivity|]. apply up_asg.
    apply (ex_bin _ _ _ Add Mul); [reflexivity | cbn; tauto | |].
    - apply (ex_bin _ _ _ Add Mul); [reflexivity | cbn; tauto | |].
      + apply (ex_opnd _ _ _ _ Mul); [reflexivity|]. apply up_mul, up_id. reflexivity.
      + apply up_mul, up_id. reflexivity.
    - apply (ex_bin _ _ _ Mul Cast); [reflexivity | cbn; tauto | apply up_mul, up_id; reflexivity|].
      apply ex_cast.
      + eapply tyname_; [apply int_specs|]. apply decl_ptr, decl_dir, dd_none.
      + apply ex_cast0, ex_unary, ex_index; [apply ex_post, ex_id; reflexivity | apply ex_expr0, num_asg]. }
  intros t toks a. split; [exact D|]. vm_compute. reflexivity.
Qed.

(** char ( *( *x[3])(int, ...))[5]: an array of pointers to functions. *)
Example C57_example :
  let c := CBase (mkt (Basic BChar) noq) in
  let toks := [TP "("; TP "*"; TP "("; TP "*"; TId "x"; TP "["; TNum 3; TP "]"; TP ")";
               TP "("; TD (TKw KInt); TP ","; TP "..."; TP ")"; TP ")"; TP "["; TNum 5; TP "]"] in
  let t := CArr noq (Some (ENum 3)) (CPtr noq (CFun (Some ([(None, CBase (mkt (Basic BInt) noq))], true))
             (CPtr noq (CArr noq (Some (ENum 5)) c)))) in
  decl (fun _ => None) false false true c toks (Some "x") t /\
  parse_declarator (fun _ => None) false false c (toks ++ [TP ";"]) = POk (t, Some "x", [TP ";"]).
Proof.
  assert (P : prms (fun _ => None) false false ([TD (TKw KInt)] ++ [TP ","; TP "..."])
                (Some ([(None, CBase (mkt (Basic BInt) noq))], true))).
  { apply prms_dots, plist1. apply (parm_ _ _ _ false [TD (TKw KInt)] (mkt (Basic BInt) noq) [] None (CBase (mkt (Basic BInt) noq)));
      [apply int_specs | apply decl_dir, dd_none | reflexivity]. }
  assert (D : decl (fun _ => None) false false true (CBase (mkt (Basic BChar) noq))
    ((TP "(" :: (TP "*" :: (qwords [] ++ (TP "(" :: (TP "*" :: (qwords [] ++ ([TId "x"] ++ TP "[" :: [TNum 3] ++ [TP "]"]))) ++ [TP ")"])
       ++ TP "(" :: ([TD (TKw KInt)] ++ [TP ","; TP "..."]) ++ [TP ")"])) ++ [TP ")"]) ++ TP "[" :: [TNum 5] ++ [TP "]"])
    (Some "x")
    (CArr noq (Some (ENum 3)) (CPtr noq (CFun (Some ([(None, CBase (mkt (Basic BInt) noq))], true))
       (CPtr noq (CArr noq (Some (ENum 5)) (CBase (mkt (Basic BChar) noq)))))))).
  { apply decl_dir. eapply dd_arr; [reflexivity | apply bound_e, num_asg|].
    apply dd_par; [|reflexivity]. apply decl_ptr, decl_dir. eapply dd_fun; [reflexivity | reflexivity | exact P|].
    apply dd_par; [|reflexivity]. apply decl_ptr, decl_dir. eapply dd_arr; [reflexivity | apply bound_e, num_asg|].
    apply dd_id. }
  intros c toks t. split; [exact D|]. vm_compute. reflexivity.
Qed.

(** Accepted though not C: the conditional expression on the left of "=". *)
Example C56_accepted_example :
  parse_expr (fun _ => None) false false [TId "a"; TP "+"; TId "b"; TP "="; TId "c"; TP ";"] =
    POk (EAssign None (EBin OAdd (EId "a") (EId "b")) (EId "c"), [TP ";"]) /\
  no_types (fun _ => None) [TId "a"; TP "+"; TId "b"; TP "="; TId "c"; TP ";"].
Proof. split; [vm_compute; reflexivity | repeat constructor]. Qed.
