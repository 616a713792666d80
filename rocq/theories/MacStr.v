(** C13: the result of # denotes the spelling of its operand. *)
From Coq Require Import Ascii String ZArith List Bool Lia.
From Verif Require Import Base LexSpec LexModel PpSpec MacSpec MacModel MacProofs MacPaste.
Import ListNotations.
Local Open Scope string_scope.
Local Open Scope list_scope.
Local Open Scope Z_scope.

(** The body of a string literal and the bytes it denotes. *)
Inductive denotes : list Z -> list Z -> Prop :=
| den_nil : denotes [] []
| den_esc : forall c b u, c = 92 \/ c = 34 -> denotes b u -> denotes (92 :: c :: b) (c :: u)
| den_plain : forall c b u, c <> 92 -> c <> 34 -> c <> 10 -> c <> 0 -> denotes b u -> denotes (c :: b) (c :: u).
Lemma denotes_app a u b v : denotes a u -> denotes b v -> denotes (a ++ b) (u ++ v).
Proof. induction 1; intros HB; cbn [app]; [exact HB|constructor 2; auto|constructor 3; auto]. Qed.
Lemma denotes_end b u r : denotes b u -> string_literal_end (b ++ 34 :: r) = Ok (length b).
Proof.
  induction 1 as [|c b u C D IH|c b u N1 N2 N3 N4 D IH]; cbn [app string_literal_end length]; [reflexivity| |].
  - change (92 =? 34) with false. change ((92 =? 10) || (92 =? 0)) with false. change (92 =? 92) with true. cbv iota. rewrite IH. reflexivity.
  - rewrite (proj2 (Z.eqb_neq _ _) N1), (proj2 (Z.eqb_neq _ _) N2), (proj2 (Z.eqb_neq _ _) N3), (proj2 (Z.eqb_neq _ _) N4). cbn [orb]. rewrite IH. reflexivity.
Qed.
Lemma denotes_units b u : denotes b u -> forall f room r, (length b < f)%nat -> (length b <= room)%nat -> read_units E8 f (length b) room (b ++ 34 :: r) = Ok u.
Proof.
  induction 1 as [|c b u C D IH|c b u N1 N2 N3 N4 D IH]; intros f room r F RM; (destruct f as [|f]; [lia|]); cbn [length] in *.
  - reflexivity.
  - cbn [app read_units]. change (92 =? 92) with true. cbv iota.
    assert (ES : read_escaped_char (c :: b ++ 34 :: r) = Ok (c, 1%nat)) by (destruct C as [->| ->]; reflexivity). rewrite ES. cbn [bind fst snd length skipn].
    assert (MO : c mod 2 ^ enc_bits E8 = c) by (destruct C as [->| ->]; reflexivity). rewrite MO. destruct room as [|room]; [lia|]. cbn [Nat.leb Nat.sub]. rewrite Nat.sub_0_r. rewrite IH by lia. reflexivity.
  - cbn [app read_units]. rewrite (proj2 (Z.eqb_neq _ _) N1). cbn [str_units bind fst snd length skipn]. destruct room as [|room]; [lia|]. cbn [Nat.leb Nat.sub]. rewrite !Nat.sub_0_r. rewrite IH by lia. reflexivity.
Qed.
Lemma denotes_lex o b u : denotes b u -> tokenize o (34 :: b ++ [34; 0]) = Ok [mktok (TK_STR E8 u) 0 (length b + 2) true false; mktok TK_EOF (length b + 2) 0 true false].
Proof.
  intros D. unfold tokenize. cbn [length]. rewrite app_length. cbn [length]. replace (S (length b + 2)) with (S (S (length b + 1))) by lia. remember (S (length b + 1)) as f eqn:EF. cbn [tokenize2]. change (34 =? 0) with false. cbv iota.
  assert (PU : forall d r, read_punct o (34 :: d :: r) = Ok 0%nat) by (intros d r; reflexivity).
  assert (LS : lex_step o (34 :: b ++ [34; 0]) = Ok (Tok (TK_STR E8 u) (length b + 2))).
  { assert (RP : read_punct o (34 :: b ++ [34; 0]) = Ok 0%nat) by (destruct b; apply PU). unfold lex_step.
    change (34 =? 10) with false. change (existsb (Z.eqb 34) [32; 9; 11; 12]) with false. change (34 =? 47) with false. change (34 =? 46) with false. change (Isdigit 34) with false. cbn [andb]. cbv iota. rewrite RP. cbn [bind Nat.eqb negb]. change (34 =? 34) with true. cbv iota.
    unfold read_string_literal. cbn [skipn]. rewrite (denotes_end _ _ _ D). cbn [bind]. rewrite (denotes_units _ _ D) by lia. reflexivity. }
  rewrite LS. cbn [bind]. replace (skipn (length b + 2) (34 :: b ++ [34; 0])) with [0].
  2: { replace (34 :: b ++ [34; 0]) with ((34 :: b ++ [34]) ++ [0]) by (cbn [app]; rewrite <- app_assoc; reflexivity). rewrite skipn_app. replace (length (34 :: b ++ [34])) with (length b + 2)%nat by (cbn [length]; rewrite app_length; cbn [length]; lia). rewrite Nat.sub_diag. rewrite skipn_all2 by (cbn [length]; rewrite app_length; cbn [length]; lia). reflexivity. }
  subst f. cbn [tokenize2]. change (0 =? 0) with true. cbv iota. reflexivity.
Qed.

(** Tokens whose spelling # can quote: a backslash or quote is only in a string literal or
    character constant, where it is escaped. *)
Definition quotable (t : mtok) : Prop :=
  mtext t <> "" /\ ~ In 0 (bytes_of (mtext t)) /\ ~ In 10 (bytes_of (mtext t)) /\
  (is_lit t = false -> ~ In 34 (bytes_of (mtext t)) /\ ~ In 92 (bytes_of (mtext t))).
Lemma bytes_cons c s : bytes_of (String c s) = Z.of_nat (nat_of_ascii c) :: bytes_of s.
Proof. reflexivity. Qed.
Lemma ascii_z c d : Z.of_nat (nat_of_ascii c) = Z.of_nat (nat_of_ascii d) -> c = d.
Proof. intros H. apply Nat2Z.inj in H. rewrite <- (ascii_nat_embedding c), <- (ascii_nat_embedding d), H. reflexivity. Qed.
Lemma slashed_denotes s : ~ In 0 (bytes_of s) -> ~ In 10 (bytes_of s) -> denotes (bytes_of (slashed s)) (bytes_of s).
Proof.
  induction s as [|c s IH]; intros N0 N1; [constructor|]. rewrite bytes_cons in N0, N1. cbn [slashed]. assert (IH' : denotes (bytes_of (slashed s)) (bytes_of s)) by (apply IH; intros H; [apply N0|apply N1]; right; exact H).
  destruct (Ascii.eqb_spec c "\"%char) as [->|NB]; [rewrite !bytes_cons; constructor 2; auto|]. destruct (Ascii.eqb_spec c """"%char) as [->|NQ]; [cbn [orb]; rewrite !bytes_cons; constructor 2; auto|].
  cbn [orb]. rewrite !bytes_cons. constructor 3; auto.
  - intros H. apply NB. apply ascii_z. exact H.
  - intros H. apply NQ. apply ascii_z. exact H.
  - intros H. apply N1. left. exact H.
  - intros H. apply N0. left. exact H.
Qed.
Lemma plain_denotes s : ~ In 0 s -> ~ In 10 s -> ~ In 34 s -> ~ In 92 s -> denotes s s.
Proof.
  induction s as [|c s IH]; intros A B C D; [constructor|]. constructor 3; try (intros ->; firstorder); apply IH; firstorder.
Qed.
Lemma tok_denotes t : quotable t -> denotes (bytes_of (if is_lit t then slashed (mtext t) else mtext t)) (bytes_of (mtext t)).
Proof. intros [NE [N0 [N1 H]]]. destruct (is_lit t); [apply slashed_denotes; assumption|]. destruct (H eq_refl). apply plain_denotes; assumption. Qed.
Definition piece (t : mtok) : bool * string := (sp t, mtext t).
Lemma join_denotes l : Forall quotable l ->
  denotes (bytes_of (join_tokens true l)) (flat_map (fun t : bool * string => (if fst t then [32] else []) ++ bytes_of (snd t)) (map piece l)).
Proof.
  induction 1 as [|t l Q QL IH]; [constructor|]. cbn [join_tokens map flat_map piece fst snd]. rewrite andb_true_r, !bytes_app, <- !app_assoc. apply denotes_app; [|apply denotes_app; [apply tok_denotes, Q|exact IH]].
  destruct (sp t); [constructor 3; try lia; constructor|constructor].
Qed.
Lemma append_ne a : a <> "" -> String.eqb a "" = false.
Proof. intros H. apply String.eqb_neq. exact H. Qed.
Lemma slashed_ne a : a <> "" -> slashed a <> "".
Proof. destruct a as [|c a]; [congruence|]. intros _. cbn [slashed]. destruct (_ || _); discriminate. Qed.
Theorem stringize_lexes o h l : Forall quotable (filter (fun t => negb (is_pmark t)) l) ->
  exists n, tokenize o (bytes_of (mtext (stringize h l)) ++ [0]) =
    Ok [mktok (TK_STR E8 (spelling (map piece (filter (fun t => negb (is_pmark t)) l)))) 0 n true false; mktok TK_EOF n 0 true false].
Proof.
  intros Q. unfold stringize, quote_string. cbn [mtext]. rewrite !bytes_app, <- app_assoc. cbn [app]. rewrite <- app_assoc. change (bytes_of """") with [34]. cbn [app].
  remember (filter (fun t => negb (is_pmark t)) l) as l' eqn:EL. clear EL l. assert (D : denotes (bytes_of (join_tokens false l')) (spelling (map piece l'))).
  { destruct Q as [|t l Q QL]; [constructor|]. cbn [join_tokens map piece spelling]. rewrite andb_false_r. cbn [append orb]. rewrite (append_ne (if is_lit t then slashed (mtext t) else mtext t)).
    - cbn [negb]. rewrite bytes_app. apply denotes_app; [apply tok_denotes, Q|apply join_denotes, QL].
    - destruct Q as [NE _]. destruct (is_lit t); [apply slashed_ne|]; exact NE. }
  rewrite (denotes_lex o _ _ D). eexists. reflexivity.
Qed.
Theorem quote_lexes o s : ~ In 0 (bytes_of s) -> ~ In 10 (bytes_of s) -> ~ In 34 (bytes_of s) -> ~ In 92 (bytes_of s) ->
  exists n, tokenize o (bytes_of (quote_string s) ++ [0]) = Ok [mktok (TK_STR E8 (bytes_of s)) 0 n true false; mktok TK_EOF n 0 true false].
Proof.
  intros A B C D. unfold quote_string. rewrite !bytes_app, <- app_assoc. cbn [app]. rewrite <- app_assoc. change (bytes_of """") with [34]. cbn [app]. rewrite (denotes_lex o _ _ (plain_denotes _ A B C D)). eexists. reflexivity.
Qed.
