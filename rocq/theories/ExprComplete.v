(** Every phrase of the C grammar is parsed to the tree it stands for: expressions. *)
From Coq Require Import String ZArith List Bool Lia.
From Verif Require Import Base DeclSpec DeclModel DeclProofs ExprSpec ExprModel ExprEqs ExprTotal ExprText ExprSpecs.
Import ListNotations.
Local Open Scope string_scope.
Local Open Scope list_scope.

(** With enough fuel. *)
Definition ev {A} (p : nat -> pres A) (v : A) : Prop := exists N, forall f, N <= f -> p f = POk v.

(** How tightly an operator binds to what is on its left. *)
Definition prank (s : string) : nat :=
  if String.eqb s "," then 1
  else if existsb (fun p => String.eqb s (fst p)) asg_ops then 2
  else if String.eqb s "?" then 3
  else if existsb (String.eqb s) ["||"] then 4
  else if existsb (String.eqb s) ["&&"] then 5
  else if existsb (String.eqb s) ["|"] then 6
  else if existsb (String.eqb s) ["^"] then 7
  else if existsb (String.eqb s) ["&"] then 8
  else if existsb (String.eqb s) ["=="; "!="] then 9
  else if existsb (String.eqb s) ["<"; ">"; "<="; ">="] then 10
  else if existsb (String.eqb s) ["<<"; ">>"] then 11
  else if existsb (String.eqb s) ["+"; "-"] then 12
  else if existsb (String.eqb s) ["*"; "/"; "%"] then 13
  else if existsb (String.eqb s) ["("; "["; "."; "->"; "++"; "--"; "{"] then 14
  else 0.
(** What follows does not continue a phrase whose operators bind as [k] or tighter. *)
Definition stop (k : nat) (rest : list tok) : Prop :=
  match rest with TP s :: _ => prank s < k | _ => True end.

Definition rank (n : nt) : nat :=
  match n with
  | Expr => 1 | Asg => 2 | Cond => 3 | LOr => 4 | LAnd => 5 | BOr => 6 | BXor => 7 | BAnd => 8 | Eql => 9
  | Rel => 10 | Shift => 11 | Add => 12 | Mul => 13 | Cast | Unary | Post | Prim => 14
  end.
Definition lvl (n : nt) : nat := rank n - 4.

Lemma stop_punct k s rest : stop k rest -> (Nat.leb k (prank s)) = true -> punct s rest = None.
Proof.
  intros H L. apply Nat.leb_le in L. destruct rest as [|[x| | | | |] r]; try reflexivity.
  cbn [punct]. destruct (String.eqb s x) eqn:E; [|reflexivity]. apply String.eqb_eq in E. subst x.
  cbn [stop] in H. lia.
Qed.
Lemma stop_find {A} k (l : list (string * A)) rest : stop k rest ->
  forallb (fun p => Nat.leb k (prank (fst p))) l = true -> find_op l rest = None.
Proof.
  intros H. induction l as [|[s a] l IH]; [reflexivity|]. cbn [forallb fst find_op]. intros L.
  apply andb_true_iff in L. destruct L as [L1 L2]. rewrite (stop_punct k s rest H L1). exact (IH L2).
Qed.
Lemma stop_weak k k' rest : stop k rest -> k <= k' -> stop k' rest.
Proof. destruct rest as [|[]]; cbn; auto. intros. lia. Qed.

Section Complete.
Variable tdef : string -> option dtype.
Variables c23 auty : bool.
Notation p_expr := (expr tdef c23 auty).
Notation p_assign := (assign tdef c23 auty).
Notation p_conditional := (conditional tdef c23 auty).
Notation p_binary := (binary tdef c23 auty).
Notation p_loop := (binary_loop tdef c23 auty).
Notation p_tparen := (typename_paren tdef c23 auty).
Notation p_cast := (cast tdef c23 auty).
Notation p_unary := (unary tdef c23 auty).
Notation p_postfix := (postfix tdef c23 auty).
Notation p_funargs := (funargs tdef c23 auty).
Notation p_primary := (primary tdef c23 auty).
Notation p_typename := (typename tdef c23 auty).
Notation first_ok := (first_ok tdef).
Notation head_ok := (head_ok tdef).

Lemma first_punct s t r : first_ok t = true ->
  existsb (String.eqb s) ["("; "*"; "&"; "+"; "-"; "~"; "!"; "++"; "--"; "&&"] = false ->
  punct s (t :: r) = None.
Proof.
  intros F H. destruct t; try reflexivity. cbn [punct]. destruct (String.eqb s s0) eqn:E; [|reflexivity].
  apply String.eqb_eq in E. subst s0. unfold ExprText.first_ok in F. rewrite F in H. discriminate H.
Qed.
Lemma first_typename t r : first_ok t = true -> is_typename tdef (t :: r) = false.
Proof.
  intros F. destruct t; try reflexivity; cbn in *; [discriminate F|].
  destruct (tdef s); [discriminate F | reflexivity].
Qed.
Lemma head_typename b ts rest : head_ok b ts -> is_typename tdef (ts ++ rest) = false.
Proof. intros H. destruct ts as [|t r]; [destruct H|]. apply first_typename. exact (head_first _ _ _ _ H). Qed.
Lemma head_punct b s ts rest : head_ok b ts ->
  existsb (String.eqb s) ["("; "*"; "&"; "+"; "-"; "~"; "!"; "++"; "--"; "&&"] = false ->
  punct s (ts ++ rest) = None.
Proof. intros H. destruct ts as [|t r]; [destruct H|]. apply first_punct. exact (head_first _ _ _ _ H). Qed.

(** The first tests of unary fail on primary expressions. *)
Lemma prim_tests ts rest : prim_ok tdef false ts ->
  find_op un_ops (ts ++ rest) = None /\ find_op [("++", true); ("--", false)] (ts ++ rest) = None /\
  punct "&&" (ts ++ rest) = None.
Proof.
  intros [H P]. destruct ts as [|t r]; [destruct H|]. destruct t; try (repeat split; reflexivity).
  subst s. repeat split; reflexivity.
Qed.
(** A unary expression is not taken for a parenthesised type. *)
Lemma unary_tparen ts rest : head_ok true ts -> forall f, 1 <= f -> p_tparen f (ts ++ rest) = POk None.
Proof.
  intros H f L. destruct f as [|f]; [lia|]. rewrite typename_paren_S.
  destruct ts as [|t r]; [destruct H|]. cbn [app]. destruct (punct "(" (t :: r ++ rest)) eqn:P; [|reflexivity].
  destruct t; try discriminate P. cbn [punct] in P. destruct (String.eqb "(" s) eqn:E; [|discriminate P].
  apply String.eqb_eq in E. subst s. injection P as <-. destruct H as [_ [_ H]]. specialize (H eq_refl).
  destruct r as [|u r]; [destruct H|]. cbn [app]. rewrite first_typename by (apply H; reflexivity). reflexivity.
Qed.

(** * The claim for each nonterminal *)
Definition P_args (us : list tok) (bs : list etree) : Prop :=
  forall rest, ev (fun f => p_funargs f true (us ++ TP ")" :: rest)) (bs, rest) /\
    (bs <> [] -> ev (fun f => p_funargs f false (TP "," :: us ++ TP ")" :: rest)) (bs, rest)).
Definition P_ex (n : nt) (ts : list tok) (a : etree) : Prop :=
  match n with
  | Prim => forall rest, ev (fun f => p_primary f (ts ++ rest)) (a, rest)
  | Post => forall rest v, ev (fun f => p_postfix f a rest) v -> ev (fun f => p_unary f (ts ++ rest)) v
  | Unary => forall rest, stop 14 rest -> ev (fun f => p_unary f (ts ++ rest)) (a, rest)
  | Cast => forall rest, stop 14 rest -> ev (fun f => p_cast f (ts ++ rest)) (a, rest)
  | Cond => forall rest, stop 3 rest -> ev (fun f => p_conditional f (ts ++ rest)) (a, rest)
  | Asg => forall rest, stop 2 rest -> ev (fun f => p_assign f (ts ++ rest)) (a, rest)
  | Expr => forall rest, stop 1 rest -> ev (fun f => p_expr f (ts ++ rest)) (a, rest)
  | _ => forall rest v, stop (S (rank n)) rest -> ev (fun f => p_loop f (lvl n) a rest) v ->
           ev (fun f => p_binary f (lvl n) (ts ++ rest)) v
  end.

(** As an operand of a binary operator. *)
Definition P_opnd (m : nt) (ts : list tok) (a : etree) : Prop :=
  forall rest, stop (rank m) rest -> ev (fun f => p_binary f (lvl m) (ts ++ rest)) (a, rest).

Lemma loop_stop l a rest : l < 10 -> stop (l + 4) rest -> ev (fun f => p_loop f l a rest) (a, rest).
Proof.
  intros L H. exists 1. intros [|f] Lf; [lia|]. rewrite binary_loop_S.
  rewrite (stop_find (l + 4) (level_ops l) rest H); [reflexivity|].
  do 10 (destruct l as [|l]; [reflexivity|]). lia.
Qed.

Lemma opnd_of m n ts a : operand n = Some m -> P_ex m ts a -> P_opnd m ts a.
Proof.
  intros O H rest S. destruct n; try discriminate O; injection O as <-.
  1: { destruct (H rest S) as [N E]. exists (Datatypes.S N). intros [|f] L; [lia|].
       rewrite binary_S. cbn [lvl rank Nat.sub Nat.eqb]. apply E. lia. }
  all: apply H; [eapply stop_weak; [exact S | cbn; lia]|]; apply (loop_stop _ a rest); [cbn; lia | exact S].
Qed.

Lemma case_opnd m n ts a : operand n = Some m -> P_ex m ts a -> P_ex n ts a.
Proof.
  intros O H. pose proof (opnd_of m n ts a O H) as Q. clear H.
  destruct n; try discriminate O; injection O as <-; intros rest v S V;
    destruct (Q rest S) as [N1 E1]; destruct V as [N2 E2]; exists (Datatypes.S (N1 + N2));
    (intros [|f] L; [lia|]); rewrite binary_S; cbn [lvl rank Nat.sub Nat.eqb] in *;
    rewrite E1 by lia; cbn [pbind]; apply E2; lia.
Qed.

Lemma find_level n s o r : In (s, o) (operators n) -> find_op (level_ops (lvl n)) (TP s :: r) = Some (o, r).
Proof.
  intros H. destruct n; try contradiction H; cbn in H;
    repeat (destruct H as [E | H]; [injection E as <- <-; reflexivity|]); contradiction H.
Qed.
Lemma op_rank n s o : In (s, o) (operators n) -> prank s = rank n.
Proof.
  intros H. destruct n; try contradiction H; cbn in H;
    repeat (destruct H as [E | H]; [injection E as <- <-; reflexivity|]); contradiction H.
Qed.
Lemma operand_facts n m : operand n = Some m -> lvl m = S (lvl n) /\ rank m = S (rank n) /\ lvl n < 10.
Proof. destruct n; intros H; try discriminate H; injection H as <-; cbn; repeat split; lia. Qed.
(** The claim for a binary nonterminal. *)
Lemma P_bin n m ts a : operand n = Some m -> P_ex n ts a ->
  forall rest v, stop (S (rank n)) rest -> ev (fun f => p_loop f (lvl n) a rest) v ->
    ev (fun f => p_binary f (lvl n) (ts ++ rest)) v.
Proof. intros O H. destruct n; try discriminate O; exact H. Qed.
Lemma P_bin' n m ts a : operand n = Some m ->
  (forall rest v, stop (S (rank n)) rest -> ev (fun f => p_loop f (lvl n) a rest) v ->
    ev (fun f => p_binary f (lvl n) (ts ++ rest)) v) -> P_ex n ts a.
Proof. intros O H. destruct n; try discriminate O; exact H. Qed.

Lemma case_bin n m s o ts a us b : operand n = Some m -> In (s, o) (operators n) ->
  P_ex n ts a -> P_ex m us b -> P_ex n (ts ++ TP s :: us) (EBin o a b).
Proof.
  intros O IN H1 H2. apply (P_bin' n m _ _ O). intros rest v S V.
  pose proof (opnd_of m n us b O H2 rest) as Q.
  destruct (operand_facts n m O) as (LV & RK & _). rewrite RK, LV in Q. specialize (Q S).
  rewrite <- app_assoc. cbn [app]. apply (P_bin n m _ _ O H1).
  - cbn [stop]. rewrite (op_rank n s o IN). lia.
  - destruct Q as [N1 E1]. destruct V as [N2 E2]. exists (Datatypes.S (N1 + N2)). intros [|f] L; [lia|].
    rewrite binary_loop_S, (find_level n s o _ IN), E1 by lia. cbn [pbind]. apply E2. lia.
Qed.

(** * Primary and postfix expressions *)
Lemma case_id s : tdef s = None -> P_ex Prim [TId s] (EId s).
Proof. intros H rest. exists 1. intros [|f] L; [lia|]. rewrite primary_S. cbn [app]. rewrite H. reflexivity. Qed.
Lemma case_num z : P_ex Prim [TNum z] (ENum z).
Proof. intros rest. exists 1. intros [|f] L; [lia|]. reflexivity. Qed.
Lemma case_str z : P_ex Prim [TStr z] (EStr z).
Proof. intros rest. exists 1. intros [|f] L; [lia|]. reflexivity. Qed.
Lemma case_par ts a : head_ok false ts -> P_ex Expr ts a -> P_ex Prim (TP "(" :: ts ++ [TP ")"]) a.
Proof.
  intros HD H rest. destruct (H (TP ")" :: rest)) as [N E]; [cbn; lia|].
  exists (S N). intros [|f] L; [lia|]. rewrite primary_S. cbn [app]. rewrite <- app_assoc. cbn [app].
  rewrite (head_typename _ _ _ HD), (head_punct _ "{" _ _ HD) by reflexivity.
  rewrite E by lia. reflexivity.
Qed.
Lemma case_post ts a : prim_ok tdef false ts -> P_ex Prim ts a -> P_ex Post ts a.
Proof.
  intros HD H rest v [N2 E2]. destruct (H rest) as [N1 E1]. exists (S (N1 + N2)). intros [|f] L; [lia|].
  rewrite unary_S. destruct (prim_tests ts rest HD) as (-> & -> & ->). rewrite E1 by lia. cbn [pbind]. apply E2. lia.
Qed.
Lemma case_index ts a us b : P_ex Post ts a -> P_ex Expr us b ->
  P_ex Post (ts ++ TP "[" :: us ++ [TP "]"]) (EIndex a b).
Proof.
  intros H1 H2 rest v [N2 E2]. rewrite <- app_assoc. cbn [app]. rewrite <- app_assoc. apply H1.
  destruct (H2 (TP "]" :: rest)) as [N1 E1]; [cbn; lia|]. exists (S (N1 + N2)). intros [|f] L; [lia|].
  rewrite postfix_S. cbn [punct String.eqb Ascii.eqb Bool.eqb app]. rewrite E1 by lia.
  cbn [pbind skip punct String.eqb Ascii.eqb Bool.eqb]. apply E2. lia.
Qed.
Lemma case_call ts a us bs : P_ex Post ts a -> P_args us bs ->
  P_ex Post (ts ++ TP "(" :: us ++ [TP ")"]) (ECall a bs).
Proof.
  intros H1 H2 rest v [N2 E2]. rewrite <- app_assoc. cbn [app]. rewrite <- app_assoc. apply H1.
  destruct (H2 rest) as [[N1 E1] _]. exists (S (N1 + N2)). intros [|f] L; [lia|].
  rewrite postfix_S. cbn [punct String.eqb Ascii.eqb Bool.eqb app]. rewrite E1 by lia.
  cbn [pbind]. apply E2. lia.
Qed.
Ltac tail_case H1 N2 E2 :=
  rewrite <- app_assoc; cbn [app]; apply H1;
  exists (S N2); (intros [|f] L; [lia|]); rewrite postfix_S;
  cbn [punct find_op String.eqb Ascii.eqb Bool.eqb ident pbind]; apply E2; lia.
Lemma case_dot ts a s : P_ex Post ts a -> P_ex Post (ts ++ [TP "."; TId s]) (EDot a s).
Proof. intros H1 rest v [N2 E2]. tail_case H1 N2 E2. Qed.
Lemma case_arrow ts a s : P_ex Post ts a -> P_ex Post (ts ++ [TP "->"; TId s]) (EArrow a s).
Proof. intros H1 rest v [N2 E2]. tail_case H1 N2 E2. Qed.
Lemma case_inc ts a : P_ex Post ts a -> P_ex Post (ts ++ [TP "++"]) (EPost true a).
Proof. intros H1 rest v [N2 E2]. tail_case H1 N2 E2. Qed.
Lemma case_dec ts a : P_ex Post ts a -> P_ex Post (ts ++ [TP "--"]) (EPost false a).
Proof. intros H1 rest v [N2 E2]. tail_case H1 N2 E2. Qed.

Lemma postfix_stop a rest : stop 14 rest -> forall f, 1 <= f -> p_postfix f a rest = POk (a, rest).
Proof.
  intros S f L. destruct f as [|f]; [lia|]. rewrite postfix_S.
  rewrite !(stop_punct 14) by (exact S || reflexivity).
  rewrite (stop_find 14) by (exact S || reflexivity). reflexivity.
Qed.

(** * Arguments *)
Lemma case_args0 : P_args [] [].
Proof. intros rest. split; [|congruence]. exists 1. intros [|f] L; [lia|]. reflexivity. Qed.
Lemma funargs_true us rest f : punct ")" us = None ->
  p_funargs (S f) true us = (pdo (b, r) <- p_assign f us; pdo (bs, r) <- p_funargs f false r; POk (b :: bs, r)) /\
  p_funargs (S f) false (TP "," :: us ++ rest) =
    (pdo (b, r) <- p_assign f (us ++ rest); pdo (bs, r) <- p_funargs f false r; POk (b :: bs, r)).
Proof.
  intros H. split; rewrite funargs_S.
  - rewrite H. reflexivity.
  - reflexivity.
Qed.
Lemma case_args1 ts a : head_ok false ts -> P_ex Asg ts a -> P_args ts [a].
Proof.
  intros HD H rest. destruct (H (TP ")" :: rest)) as [N E]; [cbn; lia|].
  assert (E0 : forall f, 1 <= f -> p_funargs f false (TP ")" :: rest) = POk ([], rest)).
  { intros [|f] L; [lia|]. reflexivity. }
  split; [|intros _]; exists (S (S N)); (intros [|f] L; [lia|]); rewrite funargs_S.
  - rewrite (head_punct _ ")" _ _ HD) by reflexivity. cbn [pbind]. rewrite E by lia. cbn [pbind].
    rewrite E0 by lia. reflexivity.
  - cbn [punct skip pbind String.eqb Ascii.eqb Bool.eqb]. rewrite E by lia. cbn [pbind].
    rewrite E0 by lia. reflexivity.
Qed.
Lemma case_args2 ts a us b bs : head_ok false ts -> P_ex Asg ts a -> P_args us (b :: bs) ->
  P_args (ts ++ TP "," :: us) (a :: b :: bs).
Proof.
  intros HD H1 H2 rest. destruct (H1 (TP "," :: us ++ TP ")" :: rest)) as [N E]; [cbn; lia|].
  destruct (H2 rest) as [_ H3]. destruct (H3 ltac:(discriminate)) as [N1 E1].
  rewrite <- app_assoc. cbn [app].
  split; [|intros _]; exists (S (N + N1)); (intros [|f] L; [lia|]); rewrite funargs_S.
  - rewrite (head_punct _ ")" _ _ HD) by reflexivity. cbn [pbind]. rewrite E by lia. cbn [pbind].
    rewrite E1 by lia. reflexivity.
  - cbn [punct skip pbind String.eqb Ascii.eqb Bool.eqb]. rewrite E by lia. cbn [pbind].
    rewrite E1 by lia. reflexivity.
Qed.

(** * Unary, cast and the rest *)
Lemma case_unary ts a : P_ex Post ts a -> P_ex Unary ts a.
Proof. intros H rest S. apply H. exists 1. intros f L. apply postfix_stop; [exact S | lia]. Qed.
Lemma case_pre (i : bool) ts a : P_ex Unary ts a -> P_ex Unary (TP (if i then "++" else "--") :: ts) (EPre i a).
Proof.
  intros H rest S. destruct (H rest S) as [N E]. exists (Datatypes.S N). intros [|f] L; [lia|].
  rewrite unary_S. cbn [app].
  assert (E1 : find_op un_ops (TP (if i then "++" else "--") :: ts ++ rest) = None) by (destruct i; reflexivity).
  assert (E2 : find_op [("++", true); ("--", false)] (TP (if i then "++" else "--") :: ts ++ rest) = Some (i, ts ++ rest))
    by (destruct i; reflexivity).
  rewrite E1, E2, E by lia. reflexivity.
Qed.
Lemma case_un s u ts a : In (s, u) unary_ops -> P_ex Cast ts a -> P_ex Unary (TP s :: ts) (EUn u a).
Proof.
  intros IN H rest S. destruct (H rest S) as [N E]. exists (Datatypes.S N). intros [|f] L; [lia|].
  rewrite unary_S. cbn [app].
  assert (E1 : find_op un_ops (TP s :: ts ++ rest) = Some (u, ts ++ rest)).
  { cbn in IN. repeat (destruct IN as [E1 | IN]; [injection E1 as <- <-; reflexivity|]). contradiction IN. }
  rewrite E1, E by lia. reflexivity.
Qed.
Lemma case_label s : P_ex Unary [TP "&&"; TId s] (ELabel s).
Proof. intros rest S. exists 1. intros [|f] L; [lia|]. reflexivity. Qed.

(** Parenthesised types. *)
Definition P_ty (ts : list tok) (t : ctype) : Prop :=
  forall rest, ev (fun f => p_typename f (ts ++ TP ")" :: rest)) (t, TP ")" :: rest).
Definition ty_text (ts : list tok) : Prop :=
  bal ts /\ match ts with [] => False | t :: _ => word tdef t <> TStop end.
Lemma tparen_ok ts t rest : P_ty ts t -> ty_text ts -> punct "{" rest = None ->
  ev (fun f => p_tparen f (TP "(" :: ts ++ TP ")" :: rest)) (Some (t, rest)).
Proof.
  intros H [B W] K. destruct (H rest) as [N E]. exists (S N). intros [|f] L; [lia|].
  rewrite typename_paren_S. cbn [punct String.eqb Ascii.eqb Bool.eqb].
  destruct ts as [|x r]; [contradiction W|].
  assert (T : is_typename tdef ((x :: r) ++ TP ")" :: rest) = true).
  { cbn. destruct (word tdef x); congruence. }
  rewrite T. cbn [tl app].
  assert (SK : skip_paren 0 (r ++ TP ")" :: rest) = POk rest).
  { pose proof (B 0 (TP ")" :: rest)) as B0. cbn [app] in B0. rewrite skip_other in B0.
    - rewrite B0. reflexivity.
    - destruct x; try reflexivity. cbn in W. congruence. }
  rewrite SK. cbn [pbind]. rewrite K. cbn [app] in E. rewrite E by lia.
  cbn [pbind skip punct String.eqb Ascii.eqb Bool.eqb]. reflexivity.
Qed.
Lemma case_size (w : string) (kE : etree -> etree) (kT : ctype -> etree) :
  (w = "sizeof" /\ kE = ESizeofE /\ kT = ESizeofT) \/ (w = "_Alignof" /\ kE = EAlignE /\ kT = EAlignT) ->
  (forall ts a, head_ok true ts -> P_ex Unary ts a -> P_ex Unary (TW w :: ts) (kE a)) /\
  (forall ts t, P_ty ts t -> ty_text ts -> P_ex Unary (TW w :: TP "(" :: ts ++ [TP ")"]) (kT t)).
Proof.
  intros HW. split.
  - intros ts a HD H rest S. destruct (H rest S) as [N E]. exists (Datatypes.S (Datatypes.S (Datatypes.S N))).
    intros [|f] L; [lia|]. rewrite unary_S. cbn [app].
    destruct HW as [(-> & -> & ->) | (-> & -> & ->)];
      cbn [find_op un_ops punct]; (destruct f as [|f]; [lia|]); rewrite primary_S;
      rewrite unary_tparen by (exact HD || lia); cbn [pbind]; rewrite E by lia; cbn [pbind];
      apply postfix_stop; (exact S || lia).
  - intros ts t H T rest S.
    destruct (tparen_ok ts t rest H T) as [N E]. { apply (stop_punct 14); [exact S | reflexivity]. }
    exists (Datatypes.S (Datatypes.S (Datatypes.S N))).
    intros [|f] L; [lia|]. rewrite unary_S. cbn [app]. rewrite <- app_assoc. cbn [app].
    destruct HW as [(-> & -> & ->) | (-> & -> & ->)];
      cbn [find_op un_ops punct]; (destruct f as [|f]; [lia|]); rewrite primary_S;
      rewrite E by lia; cbn [pbind];
      apply postfix_stop; (exact S || lia).
Qed.
Lemma case_cast0 ts a : head_ok true ts -> P_ex Unary ts a -> P_ex Cast ts a.
Proof.
  intros HD H rest S. destruct (H rest S) as [N E]. exists (Datatypes.S (Datatypes.S N)). intros [|f] L; [lia|].
  rewrite cast_S, unary_tparen by (exact HD || lia). cbn [pbind]. apply E. lia.
Qed.
Lemma case_cast ts t us a : P_ty ts t -> ty_text ts -> head_ok false us -> P_ex Cast us a ->
  P_ex Cast (TP "(" :: ts ++ TP ")" :: us) (ECast t a).
Proof.
  intros H T HD H2 rest S. destruct (H2 rest S) as [N E].
  destruct (tparen_ok ts t (us ++ rest) H T) as [N1 E1]. { apply (head_punct _ _ _ _ HD). reflexivity. }
  exists (Datatypes.S (N + N1)). intros [|f] L; [lia|]. rewrite cast_S. cbn [app]. rewrite <- app_assoc. cbn [app].
  rewrite E1 by lia. cbn [pbind]. rewrite E by lia. reflexivity.
Qed.
Lemma case_cond0 ts a : P_ex LOr ts a -> P_ex Cond ts a.
Proof.
  intros H rest S. assert (Q : ev (fun f => p_binary f 0 (ts ++ rest)) (a, rest)).
  { apply (H rest); [eapply stop_weak; [exact S | cbn; lia]|]. apply (loop_stop 0); [lia|].
    eapply stop_weak; [exact S | lia]. }
  destruct Q as [N E]. exists (Datatypes.S N). intros [|f] L; [lia|]. rewrite conditional_S, E by lia. cbn [pbind].
  rewrite (stop_punct 3 "?") by (exact S || reflexivity). reflexivity.
Qed.
Lemma before_q ts a r : P_ex LOr ts a -> ev (fun f => p_binary f 0 (ts ++ TP "?" :: r)) (a, TP "?" :: r).
Proof. intros H. apply (H (TP "?" :: r)); [cbn; lia|]. apply (loop_stop 0); cbn; lia. Qed.
Lemma case_cond ts a us b vs c : head_ok false us -> P_ex LOr ts a -> P_ex Expr us b -> P_ex Cond vs c ->
  P_ex Cond (ts ++ TP "?" :: us ++ TP ":" :: vs) (ECond a b c).
Proof.
  intros HD H1 H2 H3 rest S. rewrite <- app_assoc. cbn [app]. rewrite <- app_assoc. cbn [app].
  destruct (before_q ts a (us ++ TP ":" :: vs ++ rest) H1) as [N1 E1].
  destruct (H2 (TP ":" :: vs ++ rest)) as [N2 E2]; [cbn; lia|]. destruct (H3 rest S) as [N3 E3].
  exists (Datatypes.S (N1 + N2 + N3)). intros [|f] L; [lia|]. rewrite conditional_S, E1 by lia.
  cbn [pbind punct String.eqb Ascii.eqb Bool.eqb].
  rewrite (head_punct _ ":" _ _ HD) by reflexivity. rewrite E2 by lia.
  cbn [pbind skip punct String.eqb Ascii.eqb Bool.eqb]. rewrite E3 by lia. reflexivity.
Qed.
Lemma case_elvis ts a vs c : P_ex LOr ts a -> P_ex Cond vs c ->
  P_ex Cond (ts ++ TP "?" :: TP ":" :: vs) (EElvis a c).
Proof.
  intros H1 H3 rest S. rewrite <- app_assoc. cbn [app].
  destruct (before_q ts a (TP ":" :: vs ++ rest) H1) as [N1 E1]. destruct (H3 rest S) as [N3 E3].
  exists (Datatypes.S (N1 + N3)). intros [|f] L; [lia|]. rewrite conditional_S, E1 by lia.
  cbn [pbind punct String.eqb Ascii.eqb Bool.eqb]. rewrite E3 by lia. reflexivity.
Qed.
Lemma case_asg0 ts a : P_ex Cond ts a -> P_ex Asg ts a.
Proof.
  intros H rest S. destruct (H rest (stop_weak _ _ _ S (le_S _ _ (le_n _)))) as [N E]. exists (Datatypes.S N).
  intros [|f] L; [lia|]. rewrite assign_S, E by lia. cbn [pbind].
  rewrite (stop_find 2) by (exact S || reflexivity). reflexivity.
Qed.
Lemma unary_cond ts a : head_ok true ts -> P_ex Unary ts a -> P_ex Cond ts a.
Proof.
  intros HD H. apply case_cond0.
  apply (case_opnd LAnd), (case_opnd BOr), (case_opnd BXor), (case_opnd BAnd), (case_opnd Eql), (case_opnd Rel),
    (case_opnd Shift), (case_opnd Add), (case_opnd Mul), (case_opnd Cast); try reflexivity.
  apply case_cast0; assumption.
Qed.
Lemma case_asg s o ts a us b : In (s, o) assign_ops -> head_ok true ts -> P_ex Unary ts a -> P_ex Asg us b ->
  P_ex Asg (ts ++ TP s :: us) (EAssign o a b).
Proof.
  intros IN HD H1 H2 rest S. rewrite <- app_assoc. cbn [app].
  assert (F : find_op asg_ops (TP s :: us ++ rest) = Some (o, us ++ rest) /\ prank s = 2).
  { cbn in IN. repeat (destruct IN as [E1 | IN]; [injection E1 as <- <-; split; reflexivity|]). contradiction IN. }
  destruct F as [F R]. destruct (unary_cond ts a HD H1 (TP s :: us ++ rest)) as [N1 E1]; [cbn; lia|].
  destruct (H2 rest S) as [N2 E2]. exists (Datatypes.S (N1 + N2)). intros [|f] L; [lia|].
  rewrite assign_S, E1 by lia. cbn [pbind]. rewrite F, E2 by lia. reflexivity.
Qed.
Lemma case_expr0 ts a : P_ex Asg ts a -> P_ex Expr ts a.
Proof.
  intros H rest S. destruct (H rest (stop_weak _ _ _ S (le_S _ _ (le_n _)))) as [N E]. exists (Datatypes.S N).
  intros [|f] L; [lia|]. rewrite expr_S, E by lia. cbn [pbind].
  rewrite (stop_punct 1 ",") by (exact S || reflexivity). reflexivity.
Qed.
Lemma case_comma ts a us b : P_ex Asg ts a -> P_ex Expr us b -> P_ex Expr (ts ++ TP "," :: us) (EComma a b).
Proof.
  intros H1 H2 rest S. rewrite <- app_assoc. cbn [app].
  destruct (H1 (TP "," :: us ++ rest)) as [N1 E1]; [cbn; lia|]. destruct (H2 rest S) as [N2 E2].
  exists (Datatypes.S (N1 + N2)). intros [|f] L; [lia|]. rewrite expr_S, E1 by lia.
  cbn [pbind punct String.eqb Ascii.eqb Bool.eqb]. rewrite E2 by lia. reflexivity.
Qed.
End Complete.
