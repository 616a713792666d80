(** What the texts of phrases look like: their first tokens, and that parentheses match. *)
From Coq Require Import String ZArith List Bool Lia.
From Verif Require Import Base DeclSpec DeclModel ExprSpec ExprModel.
Import ListNotations.
Local Open Scope string_scope.

Scheme ex_mind := Minimality for ex Sort Prop
with args_mind := Minimality for args Sort Prop
with tyname_mind := Minimality for tyname Sort Prop
with decl_mind := Minimality for decl Sort Prop
with ddecl_mind := Minimality for ddecl Sort Prop
with bound_mind := Minimality for bound Sort Prop
with prms_mind := Minimality for prms Sort Prop
with plist_mind := Minimality for plist Sort Prop
with parm_mind := Minimality for parm Sort Prop.
Combined Scheme phrase_ind from ex_mind, args_mind, tyname_mind, decl_mind, ddecl_mind, bound_mind,
  prms_mind, plist_mind, parm_mind.

Section Text.
Variable tdef : string -> option dtype.
Variables c23 lax : bool.
Notation word := (word tdef).

(** * Specifier lists *)
Lemma specs_words ts t : specs tdef ts t -> Forall (fun x => word x <> TStop) ts /\ ts <> [].
Proof.
  intros H. destruct H as [ts b P N S D | ts us x t X NT NS Q].
  - split.
    + apply Forall_forall. intros x IN E. rewrite Forall_forall in P.
      specialize (P (word x) (in_map word _ _ IN)). rewrite E in P. exact P.
    + intros ->. destruct D as (row & IN & PM). apply Permutation.Permutation_nil in PM.
      subst row. cbn in IN. repeat (destruct IN as [E | IN]; [discriminate E|]). exact IN.
  - split; [|destruct ts; discriminate].
    assert (F : Forall (fun x => word x <> TStop) (ts ++ us)).
    { apply Forall_forall. intros y IN E. rewrite Forall_forall in NT.
      specialize (NT (word y) (in_map word _ _ IN)). rewrite E in NT. exact NT. }
    rewrite Forall_app in F. apply Forall_app. split; [apply F|]. constructor; [|apply F].
    intros E. rewrite E in X. destruct X; discriminate.
Qed.

(** * Parentheses *)
Definition bal (ts : list tok) : Prop := forall l rest, skip_paren l (ts ++ rest) = skip_paren l rest.
Definition paren (t : tok) : bool :=
  match t with TP s => String.eqb s "(" || String.eqb s ")" | _ => false end.
Lemma skip_other t l r : paren t = false -> skip_paren l (t :: r) = skip_paren l r.
Proof.
  destruct t; try reflexivity. cbn [paren]. intros H. apply orb_false_iff in H. destruct H as [A B].
  apply String.eqb_neq in A. apply String.eqb_neq in B. cbn [skip_paren].
  repeat match goal with |- context [match ?x with _ => _ end] => destruct x; try reflexivity; try congruence end.
Qed.
Lemma bal_nil : bal [].
Proof. intros l r. reflexivity. Qed.
Lemma bal_tok t ts : paren t = false -> bal ts -> bal (t :: ts).
Proof. intros P B l r. cbn [app]. rewrite skip_other by exact P. apply B. Qed.
Lemma bal_app a b : bal a -> bal b -> bal (a ++ b).
Proof. intros A B l r. rewrite <- app_assoc, A. apply B. Qed.
Lemma bal_par a b : bal a -> bal b -> bal (TP "(" :: a ++ TP ")" :: b).
Proof.
  intros A B l r. cbn [app]. rewrite <- app_assoc. cbn [skip_paren]. rewrite A. cbn [app skip_paren]. apply B.
Qed.
Lemma bal_word ts : Forall (fun x => word x <> TStop) ts -> bal ts.
Proof.
  induction 1 as [|t ts W F IH]; [apply bal_nil|]. apply bal_tok; [|exact IH].
  destruct t; try reflexivity. cbn in W. congruence.
Qed.
Lemma bal_quals qs ts : bal ts -> bal (qwords qs ++ ts).
Proof.
  intros B. apply bal_app; [|exact B]. induction qs; [apply bal_nil|].
  cbn. apply bal_tok; [reflexivity | exact IHqs].
Qed.
Lemma op_paren n s o : In (s, o) (operators n) -> paren (TP s) = false.
Proof. destruct n; cbn; intros H; repeat (destruct H as [E | H]; [injection E as <- <-; reflexivity|]); contradiction H. Qed.
Lemma asg_paren s o : In (s, o) assign_ops -> paren (TP s) = false.
Proof. cbn; intros H; repeat (destruct H as [E | H]; [injection E as <- <-; reflexivity|]); contradiction H. Qed.
Lemma un_paren s u : In (s, u) unary_ops -> paren (TP s) = false.
Proof. cbn; intros H; repeat (destruct H as [E | H]; [injection E as <- <-; reflexivity|]); contradiction H. Qed.

Ltac balt :=
  first
  [ assumption
  | apply bal_nil
  | apply bal_quals
  | apply bal_par
  | apply bal_tok; [first [reflexivity | eapply op_paren; eassumption | eapply asg_paren; eassumption | eapply un_paren; eassumption]|]
  | apply bal_app
  | apply bal_word; eapply specs_words; eassumption ].

Lemma text_bal :
  (forall n ts a, ex tdef c23 lax n ts a -> bal ts) /\
  (forall ts l, args tdef c23 lax ts l -> bal ts) /\
  (forall ts t, tyname tdef c23 lax ts t -> bal ts) /\
  (forall k T ts x T', decl tdef c23 lax k T ts x T' -> bal ts) /\
  (forall k T ts x T', ddecl tdef c23 lax k T ts x T' -> bal ts) /\
  (forall ts n, bound tdef c23 lax ts n -> bal ts) /\
  (forall ts p, prms tdef c23 lax ts p -> bal ts) /\
  (forall ts l, plist tdef c23 lax ts l -> bal ts) /\
  (forall ts p, parm tdef c23 lax ts p -> bal ts).
Proof.
  apply (phrase_ind tdef c23 lax (fun _ ts _ => bal ts) (fun ts _ => bal ts) (fun ts _ => bal ts)
    (fun _ _ ts _ _ => bal ts) (fun _ _ ts _ _ => bal ts) (fun ts _ => bal ts) (fun ts _ => bal ts)
    (fun ts _ => bal ts) (fun ts _ => bal ts)); intros; repeat balt.
Qed.

(** * First tokens of expressions *)
Definition first_ok (t : tok) : bool :=
  match t with
  | TP s => existsb (String.eqb s) ["("; "*"; "&"; "+"; "-"; "~"; "!"; "++"; "--"; "&&"]
  | TW s => existsb (String.eqb s) ["sizeof"; "_Alignof"]
  | TId s => match tdef s with None => true | Some _ => false end
  | TNum _ | TStr _ => true
  | TD _ => false
  end.
(** [strict]: a parenthesis is not followed by a type; "*" is followed by an operand. *)
Definition head_ok (strict : bool) (ts : list tok) : Prop :=
  match ts with
  | t :: r =>
      first_ok t = true /\
      match t with
      | TP s =>
          (s = "*" -> match r with u :: _ => first_ok u = true | [] => False end) /\
          (s = "(" -> match r with u :: _ => strict = true -> first_ok u = true | [] => False end)
      | _ => True
      end
  | [] => False
  end.
Definition prim_ok (ts : list tok) : Prop :=
  head_ok true ts /\
  match ts with TP s :: _ => s = "(" | TW _ :: _ => lax = true | _ => True end.

Lemma head_app s a b : head_ok s a -> head_ok s (a ++ b).
Proof.
  destruct a as [|t [|u r]]; [intros [] | |exact (fun H => H)].
  cbn [app head_ok]. intros [F H]. split; [exact F|]. destruct t; auto. destruct H as [H1 H2].
  split; intros E; [destruct (H1 E) | destruct (H2 E)].
Qed.
Lemma head_lax a : head_ok true a -> head_ok false a.
Proof.
  destruct a as [|t r]; [exact (fun H => H)|]. cbn [head_ok]. intros [F H]. split; [exact F|].
  destruct t; auto. destruct H as [H1 H2]. split; [exact H1|]. intros E. specialize (H2 E). destruct r; [exact H2|].
  discriminate.
Qed.
Lemma head_first s t r : head_ok s (t :: r) -> first_ok t = true.
Proof. intros [F _]. exact F. Qed.
Lemma prim_app a b : prim_ok a -> prim_ok (a ++ b).
Proof.
  intros [H P]. split; [apply head_app; exact H|]. destruct a as [|t r]; [destruct H|]. exact P.
Qed.

Definition nt_ok (n : nt) (ts : list tok) : Prop :=
  match n with
  | Prim | Post => prim_ok ts
  | Unary => head_ok true ts
  | _ => head_ok false ts
  end.
Lemma nt_lax n ts : nt_ok n ts -> head_ok false ts.
Proof. destruct n; cbn; intros H; try exact H; apply head_lax; try exact H; apply H. Qed.
Lemma nt_app n a b : nt_ok n a -> nt_ok n (a ++ b).
Proof. destruct n; cbn; intros H; try (apply prim_app; exact H); apply head_app; exact H. Qed.

Lemma ex_head : forall n ts a, ex tdef c23 lax n ts a -> nt_ok n ts.
Proof.
  apply (ex_mind tdef c23 lax (fun n ts _ => nt_ok n ts) (fun _ _ => True) (fun _ _ => True)
    (fun _ _ _ _ _ => True) (fun _ _ _ _ _ => True) (fun _ _ => True) (fun _ _ => True)
    (fun _ _ => True) (fun _ _ => True)); intros; try exact I.
  - unfold nt_ok, prim_ok, head_ok, first_ok. rewrite H. repeat split.
  - repeat split.
  - repeat split.
  - split; [|reflexivity]. destruct ts as [|t r]; [destruct H0|]. cbn [app head_ok]. split; [reflexivity|].
    split; [intros E; discriminate E|]. intros _ _. exact (head_first _ _ _ H0).
  - exact H0.
  - apply nt_app; exact H0.
  - apply nt_app; exact H0.
  - apply nt_app; exact H0.
  - apply nt_app; exact H0.
  - apply nt_app; exact H0.
  - apply nt_app; exact H0.
  - apply H0.
  - cbn. split; [reflexivity|]. split; intros E; discriminate E.
  - cbn. split; [reflexivity|]. split; intros E; discriminate E.
  - apply nt_lax in H1. destruct ts as [|t r]; [destruct H1|]. apply head_first in H1.
    cbn in H. repeat (destruct H as [E | H]; [injection E as <- <-; cbn [nt_ok head_ok]; repeat split;
      try (intros E'; discriminate E'); try (intros _; exact H1)|]). contradiction H.
  - cbn. repeat split.
  - cbn. repeat split.
  - cbn. repeat split.
  - cbn. repeat split.
  - cbn. split; [reflexivity|]. split; intros E; discriminate E.
  - apply head_lax. exact H0.
  - cbn [nt_ok head_ok]. split; [reflexivity|]. split; [intros E; discriminate E|].
    intros _. destruct ts; cbn [app]; intros E; discriminate E.
  - apply nt_lax in H1. destruct n; try discriminate H; exact H1.
  - apply nt_app; exact H2.
  - exact H0.
  - apply (nt_app LOr). exact H0.
  - apply (nt_app LOr). exact H0.
  - exact H0.
  - apply (nt_app Unary) with (b := TP s :: us) in H1. apply head_lax. exact H1.
  - exact H0.
  - apply (nt_app Asg). exact H0.
  - apply (nt_app Cond). exact H2.
  - split; [exact H1 | exact H].
  - split; [exact H1 | exact H].
Qed.

(** * First tokens of declarators and parameters *)
Definition dfirst (k : bool) (t : tok) : bool :=
  match t with
  | TP s => existsb (String.eqb s) ["*"; "("; "["]
  | TId _ => k
  | _ => false
  end.
Definition dhead (k : bool) (ts : list tok) : Prop := match ts with t :: _ => dfirst k t = true | [] => k = false end.
Lemma dhead_app k a b : dhead k a -> dhead k b \/ a <> [] -> dhead k (a ++ b).
Proof. destruct a as [|t r]; cbn [app]; [intros _ [H | H]; [exact H | congruence] | intros H _; exact H]. Qed.

Lemma ddecl_head : forall k T ts x T', ddecl tdef c23 lax k T ts x T' -> dhead k ts.
Proof.
  induction 1; try reflexivity.
  all: destruct ts as [|t0 ts0]; [reflexivity | exact IHddecl].
Qed.
Lemma decl_head k T ts x T' : decl tdef c23 lax k T ts x T' -> dhead k ts.
Proof. intros H. destruct H as [k T ts x T' H | k T qs ts x T' H]; [exact (ddecl_head _ _ _ _ _ H) | reflexivity]. Qed.
End Text.
