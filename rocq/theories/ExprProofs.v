(** The theorems on expressions and declarators. *)
From Coq Require Import String ZArith List Bool Lia.
From Verif Require Import Base DeclSpec DeclModel ExprSpec ExprModel ExprEqs ExprTotal ExprText ExprSpecs ExprComplete ExprDecls ExprSound.
Import ListNotations.
Local Open Scope string_scope.
Local Open Scope list_scope.

Lemma ev_enough {A} (p : nat -> pres A) v n : (forall f, leq (p f) (p (S f))) -> p n <> PFuel -> ev p v -> p n = POk v.
Proof.
  intros M G [N E]. specialize (E (N + n) ltac:(lia)).
  destruct (leq_le p M n (N + n) ltac:(lia)) as [F | F]; [contradiction|]. rewrite <- F. exact E.
Qed.

Section Main.
Variable tdef : string -> option dtype.
Variables c23 auty : bool.

Lemma expr_total toks : parse_expr tdef c23 auty toks <> PFuel.
Proof.
  intros H. pose proof (e_expr _ _ _ _ (enough_all tdef c23 auty (fuel toks)) toks ltac:(unfold fuel; lia)) as G.
  unfold parse_expr in H. rewrite H in G. exact G.
Qed.
Lemma typename_total toks : parse_typename tdef c23 auty toks <> PFuel.
Proof.
  intros H. pose proof (e_typename _ _ _ _ (enough_all tdef c23 auty (fuel toks)) toks ltac:(unfold fuel; lia)) as G.
  unfold parse_typename in H. rewrite H in G. exact G.
Qed.
Lemma declarator_total T toks : parse_declarator tdef c23 auty T toks <> PFuel.
Proof.
  intros H. pose proof (e_declarator _ _ _ _ (enough_all tdef c23 auty (fuel toks)) true T toks ltac:(unfold fuel; lia)) as G.
  unfold parse_declarator in H. rewrite H in G. exact G.
Qed.
Lemma stop_after rest : after_expr rest -> stop 1 rest.
Proof.
  destruct rest as [|[s| | | | |] r]; cbn [after_expr stop]; auto. cbn [In]. intros H.
  repeat (destruct H as [<- | H]; [cbn; lia|]). contradiction H.
Qed.
Lemma end_after rest : after_decl rest -> decl_end rest.
Proof.
  destruct rest as [|[s| | | | |] r]; cbn [after_decl decl_end]; auto; try contradiction. cbn [In]. intros H.
  repeat (destruct H as [<- | H]; [reflexivity|]). contradiction H.
Qed.
Lemma expr_parsed ts a rest : ex tdef c23 false Expr ts a -> after_expr rest ->
  parse_expr tdef c23 auty (ts ++ rest) = POk (a, rest).
Proof.
  intros H A. unfold parse_expr.
  apply (ev_enough (fun f => expr tdef c23 auty f (ts ++ rest)) (a, rest) (fuel (ts ++ rest))).
  - intros f. apply (m_expr _ _ _ _ (mono_all tdef c23 auty f)).
  - apply expr_total.
  - destruct (all_ok tdef c23 auty) as [P _]. exact (P Expr ts a H rest (stop_after _ A)).
Qed.
Lemma typename_parsed ts t rest : tyname tdef c23 false ts t ->
  parse_typename tdef c23 auty (ts ++ TP ")" :: rest) = POk (t, TP ")" :: rest).
Proof.
  intros H. unfold parse_typename.
  apply (ev_enough (fun f => typename tdef c23 auty f (ts ++ TP ")" :: rest)) (t, TP ")" :: rest)
    (fuel (ts ++ TP ")" :: rest))).
  - intros f. apply (m_typename _ _ _ _ (mono_all tdef c23 auty f)).
  - apply typename_total.
  - destruct (all_ok tdef c23 auty) as (_ & _ & P & _). exact (proj1 (P ts t H) rest).
Qed.
Lemma declarator_parsed k T ts x T' rest : decl tdef c23 false k T ts x T' -> after_decl rest ->
  parse_declarator tdef c23 auty T (ts ++ rest) = POk (T', x, rest).
Proof.
  intros H A. unfold parse_declarator.
  apply (ev_enough (fun f => declarator tdef c23 auty f true T (ts ++ rest)) (T', x, rest) (fuel (ts ++ rest))).
  - intros f. apply (m_declarator _ _ _ _ (mono_all tdef c23 auty f)).
  - apply declarator_total.
  - destruct (all_ok tdef c23 auty) as (_ & _ & _ & P & _).
    apply (P k T ts x T' H); [reflexivity | exact (end_after _ A)].
Qed.
Lemma expr_sound toks a rest : no_types tdef toks -> parse_expr tdef c23 auty toks = POk (a, rest) ->
  exists ts, toks = ts ++ rest /\ ex tdef c23 true Expr ts a.
Proof. intros C H. exact (so_expr _ _ _ _ (sound_all tdef c23 auty (fuel toks)) toks a rest C H). Qed.
End Main.

Lemma expr_one tdef c23 ts a b : ex tdef c23 false Expr ts a -> ex tdef c23 false Expr ts b -> a = b.
Proof.
  intros H1 H2. pose proof (expr_parsed tdef c23 false ts a [] H1 Logic.I) as E1.
  rewrite (expr_parsed tdef c23 false ts b [] H2 Logic.I) in E1. injection E1 as ->. reflexivity.
Qed.
Lemma declarator_one tdef c23 k k' T ts x T1 y T2 : decl tdef c23 false k T ts x T1 -> decl tdef c23 false k' T ts y T2 ->
  x = y /\ T1 = T2.
Proof.
  intros H1 H2. pose proof (declarator_parsed tdef c23 false k T ts x T1 [] H1 Logic.I) as E1.
  rewrite (declarator_parsed tdef c23 false k' T ts y T2 [] H2 Logic.I) in E1. injection E1 as -> ->. auto.
Qed.
Lemma typename_one tdef c23 ts t u : tyname tdef c23 false ts t -> tyname tdef c23 false ts u -> t = u.
Proof.
  intros H1 H2. pose proof (typename_parsed tdef c23 false ts t [] H1) as E1.
  rewrite (typename_parsed tdef c23 false ts u [] H2) in E1. injection E1 as ->. reflexivity.
Qed.

(** Brackets match in every phrase. *)
Definition cnt (s : string) (ts : list tok) : nat :=
  List.length (filter (fun t => match t with TP x => String.eqb s x | _ => false end) ts).
Definition sq (ts : list tok) : Prop := cnt "[" ts = cnt "]" ts.
Lemma cnt_app s a b : cnt s (a ++ b) = cnt s a + cnt s b.
Proof. unfold cnt. rewrite filter_app, app_length. reflexivity. Qed.
Lemma cnt_cons s t a : cnt s (t :: a) = match t with TP x => if String.eqb s x then 1 else 0 | _ => 0 end + cnt s a.
Proof. unfold cnt. cbn [filter]. destruct t; try reflexivity. destruct (String.eqb s s0); reflexivity. Qed.
Lemma cnt_nil s : cnt s [] = 0.
Proof. reflexivity. Qed.
Lemma cnt_word tdef ts s : Forall (fun x => word tdef x <> TStop) ts -> cnt s ts = 0.
Proof.
  induction 1 as [|t r W F IH]; [reflexivity|]. rewrite cnt_cons, IH. destruct t; try reflexivity. cbn in W. congruence.
Qed.
Lemma cnt_quals s qs : cnt s (qwords qs) = 0.
Proof. induction qs as [|q qs IH]; [reflexivity|]. cbn [qwords map]. fold (qwords qs). rewrite cnt_cons, IH. reflexivity. Qed.
Lemma sq_ops n s o : In (s, o) (operators n) -> String.eqb "[" s = false /\ String.eqb "]" s = false.
Proof. destruct n; cbn; intros H; repeat (destruct H as [E | H]; [injection E as <- <-; split; reflexivity|]); contradiction H. Qed.
Lemma sq_asg s o : In (s, o) assign_ops -> String.eqb "[" s = false /\ String.eqb "]" s = false.
Proof. cbn; intros H; repeat (destruct H as [E | H]; [injection E as <- <-; split; reflexivity|]); contradiction H. Qed.
Lemma sq_un s o : In (s, o) unary_ops -> String.eqb "[" s = false /\ String.eqb "]" s = false.
Proof. cbn; intros H; repeat (destruct H as [E | H]; [injection E as <- <-; split; reflexivity|]); contradiction H. Qed.
Ltac sqt :=
  unfold sq in *; rewrite ?cnt_app, ?cnt_cons, ?cnt_app, ?cnt_cons, ?cnt_app, ?cnt_cons, ?cnt_quals, ?cnt_nil;
  repeat match goal with
  | H : In _ (operators _) |- _ => apply sq_ops in H; destruct H as [?E ?E]
  | H : In _ assign_ops |- _ => apply sq_asg in H; destruct H as [?E ?E]
  | H : In _ unary_ops |- _ => apply sq_un in H; destruct H as [?E ?E]
  | H : specs _ _ _ |- _ => apply specs_words in H; destruct H as [H _];
      pose proof (cnt_word _ _ "[" H); pose proof (cnt_word _ _ "]" H); clear H
  end;
  repeat match goal with E : String.eqb _ _ = false |- _ => rewrite E; clear E end;
  cbn [String.eqb Ascii.eqb Bool.eqb] in *; try lia.
Lemma phrase_sq tdef c23 lax : forall n ts a, ex tdef c23 lax n ts a -> sq ts.
Proof.
  apply (phrase_ind tdef c23 lax (fun _ ts _ => sq ts) (fun ts _ => sq ts) (fun ts _ => sq ts)
    (fun _ _ ts _ _ => sq ts) (fun _ _ ts _ _ => sq ts) (fun ts _ => sq ts) (fun ts _ => sq ts)
    (fun ts _ => sq ts) (fun ts _ => sq ts)); intros; try (sqt; fail).
  all: try reflexivity; try assumption.
  unfold sq in *. rewrite !cnt_cons, !cnt_app, !cnt_cons, !cnt_nil in *. cbn [String.eqb Ascii.eqb Bool.eqb] in *. lia.
Qed.

(** Unit rules, for the examples. *)
Lemma up_mul tdef c23 lax ts a : ex tdef c23 lax Unary ts a -> ex tdef c23 lax Mul ts a.
Proof. intros H. apply (ex_opnd _ _ _ _ Cast); [reflexivity|]. apply ex_cast0. exact H. Qed.
Lemma up_asg tdef c23 lax ts a : ex tdef c23 lax Add ts a -> ex tdef c23 lax Asg ts a.
Proof.
  intros H. apply ex_asg0, ex_cond0.
  apply (ex_opnd _ _ _ _ LAnd); [reflexivity|]. apply (ex_opnd _ _ _ _ BOr); [reflexivity|].
  apply (ex_opnd _ _ _ _ BXor); [reflexivity|]. apply (ex_opnd _ _ _ _ BAnd); [reflexivity|].
  apply (ex_opnd _ _ _ _ Eql); [reflexivity|]. apply (ex_opnd _ _ _ _ Rel); [reflexivity|].
  apply (ex_opnd _ _ _ _ Shift); [reflexivity|]. apply (ex_opnd _ _ _ _ Add); [reflexivity|]. exact H.
Qed.
Lemma up_id tdef c23 lax s : tdef s = None -> ex tdef c23 lax Unary [TId s] (EId s).
Proof. intros H. apply ex_unary, ex_post, ex_id. exact H. Qed.
Lemma num_asg tdef c23 lax z : ex tdef c23 lax Asg [TNum z] (ENum z).
Proof.
  apply up_asg. apply (ex_opnd _ _ _ _ Mul); [reflexivity|]. apply up_mul, ex_unary, ex_post, ex_num.
Qed.
Lemma int_specs tdef : specs tdef [TD (TKw KInt)] (mkt (Basic BInt) noq).
Proof.
  change (mkt (Basic BInt) noq) with (mkt (Basic BInt) (quals_in (map (word tdef) [TD (TKw KInt)]))).
  apply sp_kw.
  - repeat constructor.
  - repeat constructor.
  - repeat split; cbn; try discriminate; auto.
  - exists [KInt]. split; [cbn; tauto | apply Permutation.Permutation_refl].
Qed.

(** The tokens left in a parenthesised declarator are not looked at. *)
Lemma junk_in_cast tdef c23 auty :
  let toks := [TP "("; TD (TKw KInt); TP "("; TP "]"; TP ")"; TP ")"; TNum 0] in
  parse_expr tdef c23 auty toks = POk (ECast (CBase (mkt (Basic BInt) noq)) (ENum 0), []) /\
  forall n a, ~ ex tdef c23 true n toks a.
Proof.
  intros toks. split; [destruct c23; vm_compute; reflexivity|].
  intros n a H. apply phrase_sq in H. discriminate H.
Qed.
Lemma static_const tdef c23 auty T :
  parse_declarator tdef c23 auty T [TId "x"; TP "["; TD (TStor SStatic); TD (TQual QConst); TNum 3; TP "]"] = PErr.
Proof. destruct c23; vm_compute; reflexivity. Qed.
