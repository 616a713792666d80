(** Reading the output of print_tokens. *)
From Coq Require Import ZArith List Bool Lia.
From Verif Require Import Base IntModel UnicodeTables UnicodeModel LexModel PrintModel PrintSpec LexTok Relex.
Import ListNotations.
Local Open Scope Z_scope.

(** *** The tokenizer without offsets *)
Fixpoint lexs (o : lopt) (f : nat) (p : list Z) (b s : bool) : outcome (list seen) :=
  match f with
  | O => UB
  | S f' =>
      match p with
      | [] => UB
      | c :: r =>
          if c =? 0 then Ok []
          else
            do st <- lex_step o p;
            match st with
            | Newline => lexs o f' r true false
            | Space n => lexs o f' (skipn n p) b true
            | Tok k n => do l <- lexs o f' (skipn n p) false false; Ok ((k, firstn n p, b, s) :: l)
            end
      end
  end.

Lemma lexs_tokens o T f : forall off b s v, lexs o f (skipn off T) b s = Ok v ->
  exists toks e, tokenize2 o f (skipn off T) off b s = Ok (toks ++ [e]) /\ kind e = TK_EOF /\ map (see T) toks = v.
Proof.
  induction f as [|f IH]; intros off b s v H; [discriminate|]. cbn [lexs tokenize2] in *.
  destruct (skipn off T) as [|c r] eqn:E; [discriminate|].
  assert (SK : forall n, skipn n (c :: r) = skipn (off + n) T) by (intros n; rewrite <- E, skipn_skipn; f_equal; lia).
  destruct (c =? 0). { injection H as <-. exists [], (mktok TK_EOF off 0 true s). repeat split. }
  destruct (lex_step o (c :: r)) as [[|n|k n]| |]; cbn [bind] in *; try discriminate H.
  - assert (R : r = skipn (S off) T) by (replace (S off) with (off + 1)%nat by lia; rewrite <- SK; reflexivity).
    rewrite R in *. apply IH, H.
  - rewrite SK in *. apply IH, H.
  - rewrite SK in *. ob H. injection H as <-. destruct (IH _ _ _ _ E0) as [toks [e [A [B C]]]]. rewrite A. cbn [bind].
    exists (mktok k off n b s :: toks), e. repeat split; [exact B|]. cbn [map]. rewrite C. unfold see at 1, spelling. cbn [kind tlen loc at_bol has_space]. rewrite E. reflexivity.
Qed.
Lemma reads_lexs o text v : lexs o (length (text ++ [0])) (text ++ [0]) true false = Ok v -> reads o text v.
Proof. intros H. exact (lexs_tokens o (text ++ [0]) _ 0 true false v H). Qed.

(** *** Facts of single steps *)
Lemma tok_head o p k n : lex_step o p = Ok (Tok k n) -> (1 <= n)%nat /\ exists c r, p = c :: r /\ c <> 10 /\ existsb (Z.eqb c) [32; 9; 11; 12] = false.
Proof.
  destruct p as [|c r]; [discriminate|]. unfold lex_step. intros H.
  destruct (c =? 10) eqn:C1; [discriminate|].
  destruct (existsb (Z.eqb c) [32; 9; 11; 12]) eqn:C2; [ob H; discriminate|].
  assert (X : (1 <= n)%nat); [|split; [exact X|]; exists c, r; repeat split; [lia|exact C2]].
  destruct ((c =? 47) && (nth2 (c :: r) =? 47)); [ob H; discriminate|].
  destruct ((c =? 47) && (nth2 (c :: r) =? 42)); [ob H; discriminate|].
  destruct (Isdigit (if c =? 46 then nth2 (c :: r) else c)). { ob H. injection H as _ <-. destruct (c =? 46); lia. }
  ob H. destruct (negb (Nat.eqb a 0)) eqn:A. { injection H as _ <-. destruct a; [discriminate|lia]. }
  assert (PS : forall e m (F : list Z -> tkind), (do q0 <- read_string_literal e m (c :: r); Ok (Tok (F (fst q0)) (snd q0))) = Ok (Tok k n) -> (1 <= n)%nat).
  { intros e m F R. unfold read_string_literal in R. ob R. ob E0. ob E0. injection E0 as <-. cbn [fst snd] in R. injection R as _ <-. lia. }
  assert (PC : forall m (F : Z -> tkind), (do q0 <- read_char_literal m (c :: r); Ok (Tok (F (fst q0)) (snd q0))) = Ok (Tok k n) -> (1 <= n)%nat).
  { intros m F R. unfold read_char_literal in R. destruct (skipn (S m) (c :: r)) as [|y0 l0]; [discriminate|]. destruct (y0 =? 0); [discriminate|].
    ob R. ob E0. cbn [fst snd] in E0. ob E0. injection E0 as <-. cbn [fst snd] in R. injection R as _ R. lia. }
  destruct (c =? 34); [exact (PS _ _ (TK_STR E8) H)|].
  destruct ((c =? 117) && (nth2 (c :: r) =? 56) && (nth3 (c :: r) =? 34)); [exact (PS _ _ (TK_STR E8) H)|].
  destruct ((c =? 117) && (nth2 (c :: r) =? 34)); [exact (PS _ _ (TK_STR E16) H)|].
  destruct ((c =? 76) && (nth2 (c :: r) =? 34)); [exact (PS _ _ (TK_STR E32) H)|].
  destruct ((c =? 85) && (nth2 (c :: r) =? 34)); [exact (PS _ _ (TK_STR E32) H)|].
  destruct (c =? 39); [exact (PC _ (fun v => TK_CHAR ty_int (sext 8 v)) H)|].
  destruct ((c =? 117) && (nth2 (c :: r) =? 39)); [exact (PC _ (fun v => TK_CHAR ty_ushort (v mod 65536)) H)|].
  destruct ((c =? 76) && (nth2 (c :: r) =? 39)); [exact (PC _ (TK_CHAR ty_int) H)|].
  destruct ((c =? 85) && (nth2 (c :: r) =? 39)); [exact (PC _ (TK_CHAR ty_uint) H)|].
  ob H. destruct (Nat.eqb a0 0) eqn:A0; [discriminate|]. injection H as _ <-. destruct a0; [discriminate|lia].
Qed.
Lemma space_head o c r n : lex_step o (c :: r) = Ok (Space n) -> (1 <= n)%nat /\ gapch c.
Proof.
  unfold lex_step. intros H.
  destruct (c =? 10) eqn:C1; [discriminate|].
  destruct (existsb (Z.eqb c) [32; 9; 11; 12]) eqn:C2.
  { ob H. injection H as <-. split; [lia|]. unfold gapch. cbn [existsb] in C2. lia. }
  destruct ((c =? 47) && (nth2 (c :: r) =? 47)) eqn:C3. { ob H. injection H as <-. split; [lia|]. unfold gapch. lia. }
  destruct ((c =? 47) && (nth2 (c :: r) =? 42)) eqn:C4. { ob H. injection H as <-. split; [lia|]. unfold gapch. lia. }
  exfalso.
  destruct (Isdigit (if c =? 46 then nth2 (c :: r) else c)). { ob H. discriminate. }
  ob H. destruct (negb (Nat.eqb a 0)) eqn:A; [discriminate|].
  repeat match type of H with
  | (if ?b then _ else _) = _ => destruct b
  | bind ?e _ = _ => destruct e; cbn [bind] in H
  end; discriminate.
Qed.
Lemma newline_head o c r : lex_step o (c :: r) = Ok Newline -> c = 10.
Proof.
  unfold lex_step. intros H. destruct (c =? 10) eqn:C1; [lia|]. exfalso.
  repeat match type of H with
  | (if ?b then _ else _) = _ => destruct b
  | bind ?e _ = _ => destruct e; cbn [bind] in H
  end; discriminate.
Qed.

(** *** Runs *)
Fixpoint lexrun (o : lopt) (g : list ptok) (tail : list Z) : Prop :=
  match g with
  | [] => True
  | t :: g' => lex_step o (ptext t ++ concat (map ptext g') ++ tail) = Ok (Tok (pkind t) (length (ptext t))) /\ lexrun o g' tail
  end.
Definition allruns (o : lopt) (P : bool) (l : list ptok) : Prop := forall g, In g (runs P l) -> lexrun o g [10; 0].

Lemma runs_cons P t r : exists g gs, runs P (t :: r) = (t :: g) :: gs /\
  (r = [] -> g = [] /\ gs = []) /\
  (forall u r', r = u :: r' -> exists h hs, runs P r = (u :: h) :: hs /\
     (if joined P t u then g = u :: h /\ gs = hs else g = [] /\ gs = (u :: h) :: hs)).
Proof.
  revert t. induction r as [|u r IH]; intros t.
  - exists [], []. split; [reflexivity|]. split; [auto|]. intros u r' X. discriminate X.
  - destruct (IH u) as [g [gs [E _]]]. cbn [runs] in E |- *. rewrite E.
    destruct (joined P t u) eqn:J.
    + exists (u :: g), gs. split; [reflexivity|]. split; [intros X; discriminate X|]. intros u' r' X. injection X as <- <-. exists g, gs. rewrite J. auto.
    + exists [], ((u :: g) :: gs). split; [reflexivity|]. split; [intros X; discriminate X|]. intros u' r' X. injection X as <- <-. exists g, gs. rewrite J. auto.
Qed.
Lemma allruns_tail o P t r : allruns o P (t :: r) -> allruns o P r.
Proof.
  intros A g I. destruct (runs_cons P t r) as [g0 [gs [E [_ C]]]]. destruct r as [|u r]; [destruct I|].
  destruct (C u r eq_refl) as [h [hs [E2 J]]]. rewrite E2 in I. destruct (joined P t u); destruct J as [-> ->].
  - destruct I as [<-|I]; [|apply A; rewrite E; right; exact I].
    assert (X : lexrun o (t :: u :: h) [10; 0]) by (apply A; rewrite E; left; reflexivity). exact (proj2 X).
  - apply A. rewrite E. right. exact I.
Qed.

(** The text after a token *)
Lemma print_after P : forall r t, exists d w, stopch d /\
  print_loop P false (if P then None else Some (pfile t)) r = concat (map ptext (tl (hd [] (runs P (t :: r))))) ++ d :: w.
Proof.
  induction r as [|u r IH]; intros t.
  - exists 10, []. split; [left; reflexivity|reflexivity].
  - destruct (runs_cons P t (u :: r)) as [g [gs [E [_ C]]]]. destruct (C u r eq_refl) as [h [hs [E2 J]]]. rewrite E. cbn [hd tl].
    cbn [print_loop].
    assert (M : marked P (if P then None else Some (pfile t)) u = negb P && negb (Nat.eqb (pfile t) (pfile u))) by (destruct P; reflexivity).
    rewrite M. unfold joined in J.
    destruct (negb P && negb (Nat.eqb (pfile t) (pfile u))) eqn:MK.
    + assert (JF : (P || Nat.eqb (pfile t) (pfile u)) = false) by (destruct P, (Nat.eqb (pfile t) (pfile u)); try reflexivity; discriminate).
      rewrite JF, andb_false_r in J. destruct J as [-> _]. cbn [map concat app]. unfold marker. cbn [app]. exists 10. eexists. split; [left; reflexivity|reflexivity].
    + assert (JF : (P || Nat.eqb (pfile t) (pfile u)) = true) by (destruct P, (Nat.eqb (pfile t) (pfile u)); try reflexivity; discriminate).
      rewrite JF, andb_true_r in J. cbn [app negb andb].
      destruct (pbol u) eqn:B; cbn [negb andb] in J |- *.
      * destruct J as [-> _]. rewrite andb_false_r. cbn [map concat app]. exists 10. eexists. split; [left; reflexivity|reflexivity].
      * rewrite andb_true_r. destruct (psp u); cbn [negb] in J; destruct J as [-> _].
        -- cbn [map concat app]. exists 32. eexists. split; [right; reflexivity|reflexivity].
        -- cbn [app map concat]. destruct (IH u) as [d [w [D W]]]. rewrite E2 in W. cbn [hd tl] in W.
           assert (F : (if P then None else Some (pfile t)) = (if P then None else Some (pfile u))).
           { destruct P; [reflexivity|]. cbn [negb andb] in MK. apply negb_false_iff, Nat.eqb_eq in MK. rewrite MK. reflexivity. }
           rewrite F, W. exists d, w. split; [exact D|]. rewrite app_assoc. reflexivity.
Qed.
Lemma next_step o P t r : allruns o P (t :: r) ->
  lex_step o (ptext t ++ print_loop P false (if P then None else Some (pfile t)) r ++ [0]) = Ok (Tok (pkind t) (length (ptext t))).
Proof.
  intros A. destruct (print_after P r t) as [d [w [D W]]]. rewrite W, <- app_assoc. cbn [app].
  destruct (runs_cons P t r) as [g [gs [E _]]]. rewrite E. cbn [hd tl].
  assert (X : lexrun o (t :: g) [10; 0]) by (apply A; rewrite E; left; reflexivity). destruct X as [X _].
  apply relex with (c := 10) (r := [0]); [|right; left; reflexivity|exact D|destruct w; discriminate|exact X].
  intros N. rewrite N in X. cbn [length] in X. apply tok_head in X. lia.
Qed.

(** *** The whole output *)
Lemma tok_not0 o p k n : lex_step o p = Ok (Tok k n) -> exists c r, p = c :: r /\ (c =? 0) = false.
Proof.
  destruct p as [|c r]; [discriminate|]. intros H. exists c, r. split; [reflexivity|].
  destruct (c =? 0) eqn:C; [|reflexivity]. exfalso. apply Z.eqb_eq in C. subst c.
  destruct r as [|d r]; [discriminate H|]. unfold lex_step in H.
  change (0 =? 10) with false in H. change (existsb (Z.eqb 0) [32; 9; 11; 12]) with false in H. change (0 =? 47) with false in H. change (0 =? 46) with false in H.
  change (Isdigit 0) with false in H. change (read_punct o (0 :: d :: r)) with (Ok 0%nat) in H. cbn [bind andb negb Nat.eqb] in H.
  change (0 =? 34) with false in H. change (0 =? 117) with false in H. change (0 =? 76) with false in H. change (0 =? 85) with false in H. change (0 =? 39) with false in H.
  cbn [andb] in H. cbn [length read_ident] in H. change (0 =? 36) with false in H. change (Isalnum 0 || (0 =? 95)) with false in H. change (128 <=? 0) with false in H.
  cbv beta iota in H. cbn [bind Nat.eqb] in H. discriminate.
Qed.
Lemma lexs_nl o f p b s : lexs o (S f) (10 :: p) b s = lexs o f p true false.
Proof. reflexivity. Qed.
Lemma lexs_sp o f c p b s : c <> 32 -> lexs o (S f) (32 :: c :: p) b s = lexs o f (c :: p) b true.
Proof.
  intros N. cbn [lexs]. change (32 =? 0) with false. unfold lex_step. change (32 =? 10) with false. change (existsb (Z.eqb 32) [32; 9; 11; 12]) with true.
  cbv beta iota. cbn [run_of]. apply Z.eqb_neq in N. rewrite N. reflexivity.
Qed.
Lemma lexs_tok o f t p b s k : lex_step o (t ++ p) = Ok (Tok k (length t)) ->
  lexs o (S f) (t ++ p) b s = do l <- lexs o f p false false; Ok ((k, t, b, s) :: l).
Proof.
  intros H. destruct (tok_not0 _ _ _ _ H) as [c [r [E C]]]. cbn [lexs]. rewrite E in *. rewrite C, H. cbn [bind]. rewrite <- E.
  rewrite skipn_app, skipn_all, Nat.sub_diag, firstn_app, firstn_all, Nat.sub_diag. cbn [skipn firstn app]. rewrite app_nil_r. reflexivity.
Qed.

(** Markers *)
Lemma digits_ok f : forall n, 0 <= n < 10 ^ Z.of_nat (S f) -> decimal n (digits (S f) n).
Proof.
  induction f as [|f IH]; intros n N.
  all: assert (M : 0 <= n mod 10 < 10) by (apply Z.mod_pos_bound; lia).
  all: assert (ONE : n < 10 -> decimal n [48 + n mod 10]).
  1,3: intros S10; rewrite Z.mod_small in * by lia; split; [discriminate|]; split; [intros d [<-|[]]; lia|]; split; [cbn [fold_left]; lia|];
      intros H; cbn [hd] in H; rewrite H; reflexivity.
  - change (10 ^ Z.of_nat 1) with 10 in N. cbn [digits]. replace (n <? 10) with true by (symmetry; lia). apply ONE. lia.
  - change (digits (S (S f)) n) with ((if n <? 10 then [] else digits (S f) (n / 10)) ++ [48 + n mod 10]).
    destruct (n <? 10) eqn:S10; [apply ONE; lia|].
    assert (D : n = 10 * (n / 10) + n mod 10) by (apply Z.div_mod; lia).
    assert (Q : 0 <= n / 10 < 10 ^ Z.of_nat (S f)).
    { rewrite (Nat2Z.inj_succ (S f)), Z.pow_succ_r in N by lia. split; [apply Z.div_pos; lia|apply Z.div_lt_upper_bound; lia]. }
    destruct (IH _ Q) as [I1 [I2 [I3 I4]]]. split; [destruct (digits (S f) (n / 10)); discriminate|].
    split; [intros d X; apply in_app_or in X; destruct X as [X|[<-|[]]]; [auto|lia]|].
    split; [rewrite fold_left_app, I3; cbn [fold_left]; lia|].
    intros H. exfalso. destruct (digits (S f) (n / 10)) as [|y ys] eqn:E; [congruence|]. cbn [app hd] in H, I4. specialize (I4 H). rewrite I4 in I3.
    cbn [fold_left] in I3. lia.
Qed.
Lemma int_ok n : 0 <= n < 2147483648 -> decimal n (print_int n).
Proof.
  intros N. unfold print_int. replace (n <? 0) with false by (symmetry; lia). apply digits_ok. change (Z.of_nat 10) with 10. change (10 ^ 10) with 10000000000. lia.
Qed.
Lemma digit_facts d : 48 <= d <= 57 -> (d =? 46) = false /\ (d =? 39) = false /\ (d =? 0) = false /\ (d =? 36) = false /\ existsb (Z.eqb d) [101; 69; 112; 80] = false /\ Isalnum d = true /\
  (d =? 10) = false /\ existsb (Z.eqb d) [32; 9; 11; 12] = false /\ (d =? 47) = false /\ Isdigit d = true.
Proof.
  intros D. assert (Isdigit d = true) by (unfold Isdigit, Inrange; lia). assert (Isalnum d = true) by (unfold Isalnum; rewrite H; apply orb_true_r).
  cbn [existsb]. repeat split; try lia; assumption.
Qed.
Lemma number_step o ds p : ds <> [] -> (forall d, In d ds -> 48 <= d <= 57) -> p <> [] -> lex_step o (ds ++ 32 :: p) = Ok (Tok TK_PP_NUM (length ds)).
Proof.
  intros N D NP.
  assert (G : forall ds f, (forall d, In d ds -> 48 <= d <= 57) -> (length ds < f)%nat -> pp_number o f (ds ++ 32 :: p) = Ok (length ds)).
  { clear ds N D. induction ds as [|d ds IH]; intros f D L; (destruct f as [|f]; [cbn [length] in L; lia|]).
    - cbn [app pp_number length]. destruct p; [congruence|]. reflexivity.
    - cbn [app pp_number]. destruct (digit_facts d (D d (or_introl eq_refl))) as [-> [-> [-> [-> [-> [-> _]]]]]]. cbn [orb andb].
      assert (X : match ds ++ 32 :: p with [] => UB | _ :: _ => do n <- pp_number o f (skipn 1 (d :: ds ++ 32 :: p)); Ok (1 + n)%nat end = Ok (length (d :: ds))).
      { cbn [skipn]. rewrite IH; [|intros e I; apply D; right; exact I|cbn [length] in L; lia]. destruct (ds ++ 32 :: p) eqn:E; [destruct ds; discriminate|]. reflexivity. }
      exact X. }
  destruct ds as [|d ds]; [congruence|]. cbn [app]. unfold lex_step.
  destruct (digit_facts d (D d (or_introl eq_refl))) as [-> [_ [_ [_ [_ [_ [-> [-> [-> ->]]]]]]]]]. cbn [andb].
  change (skipn 1 (d :: ds ++ 32 :: p)) with (ds ++ 32 :: p). rewrite G; [reflexivity|intros e I; apply D; right; exact I|cbn [length]; rewrite app_length; lia].
Qed.
Lemma name_step o s p : plain_name s -> lex_step o (([34] ++ s ++ [34]) ++ p) = Ok (Tok (TK_STR E8 s) (length ([34] ++ s ++ [34]))).
Proof.
  intros [N1 [N2 [N3 N4]]].
  assert (SE : string_literal_end (s ++ 34 :: p) = Ok (length s)).
  { induction s as [|y s IH]; [reflexivity|]. cbn [app string_literal_end length]. cbn [In] in *.
    replace (y =? 34) with false by (symmetry; lia). replace (y =? 10) with false by (symmetry; lia). replace (y =? 0) with false by (symmetry; lia). replace (y =? 92) with false by (symmetry; lia).
    cbn [orb]. rewrite IH by tauto. reflexivity. }
  assert (UE : forall f, (length s < f)%nat -> read_units E8 f (length s) (length s) (s ++ 34 :: p) = Ok s).
  { clear SE N1 N3 N4. induction s as [|y s IH]; intros [|f] L; try (cbn [length] in L; lia); [reflexivity|]. cbn [length read_units app]. cbn [In] in N2.
    replace (y =? 92) with false by (symmetry; lia). cbn [str_units bind fst snd length Nat.leb]. change (skipn 1 (y :: s ++ 34 :: p)) with (s ++ 34 :: p).
    replace (S (length s) - 1)%nat with (length s) by lia. rewrite IH; [reflexivity|tauto|cbn [length] in L; lia]. }
  rewrite <- !app_assoc. cbn [app]. unfold lex_step. change (34 =? 10) with false. change (existsb (Z.eqb 34) [32; 9; 11; 12]) with false. change (34 =? 47) with false. change (34 =? 46) with false.
  cbn [andb]. cbv iota. change (Isdigit 34) with false. cbv iota.
  assert (RP : read_punct o (34 :: s ++ 34 :: p) = Ok 0%nat) by (destruct s; reflexivity). rewrite RP. cbn [bind Nat.eqb negb]. change (34 =? 34) with true. cbv iota.
  unfold read_string_literal. cbn [skipn]. rewrite SE. cbn [bind]. rewrite UE by lia. cbn [bind fst snd length]. rewrite (app_length s [34]). cbn [length]. replace (0 + length s + 2)%nat with (S (length s + 1)) by lia. reflexivity.
Qed.
Lemma shown_name_ok s : plain_name s -> plain_name (shown_name s) /\ name_shown s (shown_name s).
Proof.
  intros H. destruct (list_eq_dec Z.eq_dec s [45]) as [->|N].
  - split; [|left; auto]. unfold plain_name. cbn [shown_name In]. repeat split; lia.
  - assert (E : shown_name s = s) by (unfold shown_name; repeat (match goal with |- context [match ?x with _ => _ end] => destruct x end; try reflexivity); congruence).
    rewrite E. split; [exact H|right; auto].
Qed.
Lemma hash_step o p : lex_step o (35 :: 32 :: p) = Ok (Tok TK_PUNCT 1).
Proof. reflexivity. Qed.

Lemma print_ok o P : forall l f first mark, allruns o P l -> (P = false -> Forall placed l) -> (P = true -> mark = None) ->
  (length (print_loop P first mark l ++ [0%Z]) <= f)%nat ->
  exists v, lexs o f (print_loop P first mark l ++ [0]) first false = Ok v /\ shown P first mark l v.
Proof.
  induction l as [|t r IH]; intros f first mark A PL PM L.
  - exists []. split; [|constructor]. cbn [print_loop app length] in *. destruct f as [|[|f]]; try lia. reflexivity.
  - pose proof (next_step o P t r A) as NS.
    assert (NM : (if marked P mark t then Some (pfile t) else mark) = (if P then None else Some (pfile t))).
    { unfold marked. destruct P; [rewrite PM by reflexivity; reflexivity|]. destruct mark as [m|]; [|reflexivity].
      destruct (Nat.eqb m (pfile t)) eqn:E; cbn [negb andb]; [|reflexivity]. apply Nat.eqb_eq in E. rewrite E. reflexivity. }
    cbn [print_loop] in L |- *. rewrite NM in *.
    set (rest := print_loop P false (if P then None else Some (pfile t)) r) in *.
    assert (HT : exists c q, ptext t ++ rest ++ [0] = c :: q /\ c <> 32).
    { destruct (tok_head _ _ _ _ NS) as [_ [c [q [E [_ B]]]]]. exists c, q. split; [exact E|]. intros ->. discriminate. }
    assert (IHr : forall f', (length (rest ++ [0%Z]) <= f')%nat -> exists v, lexs o f' (rest ++ [0]) false false = Ok v /\ shown P false (if P then None else Some (pfile t)) r v).
    { intros f' L'. apply IH; [eapply allruns_tail; exact A| |intros ->; reflexivity|exact L']. intros PF. specialize (PL PF). inversion PL; assumption. }
    assert (BODY : forall f' b0, (length ((if psp t && negb (pbol t) then [32%Z] else []) ++ ptext t ++ rest ++ [0%Z]) <= f')%nat ->
      exists v, lexs o f' ((if psp t && negb (pbol t) then [32] else []) ++ ptext t ++ rest ++ [0]) b0 false =
         Ok ((pkind t, ptext t, b0, psp t && negb (pbol t)) :: v) /\ shown P false (if P then None else Some (pfile t)) r v).
    { intros f' b0 L'. rewrite !app_length in L'.
      assert (LT : (1 <= length (ptext t))%nat) by (destruct (tok_head _ _ _ _ NS); lia).
      destruct (psp t && negb (pbol t)); cbn [app length] in L' |- *.
      - destruct f' as [|[|f']]; try lia. destruct HT as [c [q [E C]]]. rewrite E. rewrite lexs_sp by exact C. rewrite <- E.
        rewrite (lexs_tok o f' (ptext t) _ b0 true _ NS). destruct (IHr f') as [v [V S]]; [rewrite app_length; cbn [length]; lia|]. rewrite V. exists v. split; [reflexivity|exact S].
      - destruct f' as [|f']; try lia.
        rewrite (lexs_tok o f' (ptext t) _ b0 false _ NS). destruct (IHr f') as [v [V S]]; [rewrite app_length; cbn [length]; lia|]. rewrite V. exists v. split; [reflexivity|exact S]. }
    assert (BODY2 : forall f' (b0 nl : bool), (length ((if nl then [10%Z] else []) ++ (if psp t && negb (pbol t) then [32%Z] else []) ++ ptext t ++ rest ++ [0%Z]) <= f')%nat ->
      exists v, lexs o f' ((if nl then [10] else []) ++ (if psp t && negb (pbol t) then [32] else []) ++ ptext t ++ rest ++ [0]) b0 false =
         Ok ((pkind t, ptext t, nl || b0, psp t && negb (pbol t)) :: v) /\ shown P false (if P then None else Some (pfile t)) r v).
    { intros f' b0 nl L'. destruct nl; cbn [app orb].
      - destruct f' as [|f']; [cbn [app length] in L'; lia|]. rewrite lexs_nl. apply BODY. cbn [app length] in L'. lia.
      - apply BODY. exact L'. }
    rewrite <- !app_assoc in L |- *.
    destruct (marked P mark t) eqn:MK.
    + assert (PF : P = false) by (destruct P; [discriminate|reflexivity]). subst P.
      specialize (PL eq_refl). inversion PL as [|? ? [PN PLN] _]; subst.
      pose proof (int_ok _ PLN) as DEC. destruct (shown_name_ok _ PN) as [SN NSH].
      assert (NE : mark <> Some (pfile t)) by (intros ->; unfold marked in MK; rewrite Nat.eqb_refl in MK; discriminate).
      set (body := (if negb first && pbol t then [10] else []) ++ (if psp t && negb (pbol t) then [32] else []) ++ ptext t ++ rest ++ [0]) in *.
      assert (ME : marker t ++ body = 10 :: [35] ++ 32 :: print_int (pline t) ++ 32 :: ([34] ++ shown_name (pname t) ++ [34]) ++ 10 :: body).
      { unfold marker. rewrite <- !app_assoc. reflexivity. }
      rewrite ME in L |- *. cbn [length app] in L. repeat (rewrite app_length in L; cbn [length] in L).
      assert (DL : (1 <= length (print_int (pline t)))%nat) by (destruct DEC as [D _]; destruct (print_int (pline t)); [congruence|cbn [length]; lia]).
      remember (f - 8)%nat as f0 eqn:F0. assert (FF : f = S (S (S (S (S (S (S (S f0)))))))) by lia. rewrite FF.
      rewrite lexs_nl. rewrite (lexs_tok o _ [35] (32 :: _) true false TK_PUNCT) by apply hash_step.
      assert (D1 : forall X, exists y q, print_int (pline t) ++ X = y :: q /\ y <> 32).
      { intros X. destruct DEC as [D [D2 _]]. destruct (print_int (pline t)) as [|y ys]; [congruence|]. exists y, (ys ++ X). split; [reflexivity|]. specialize (D2 y (or_introl eq_refl)). lia. }
      destruct (D1 (32 :: ([34] ++ shown_name (pname t) ++ [34]) ++ 10 :: body)) as [y [q [Y1 Y2]]]. rewrite Y1. rewrite lexs_sp by exact Y2. rewrite <- Y1.
      rewrite (lexs_tok o _ (print_int (pline t)) _ false true TK_PP_NUM) by (destruct DEC as [D [D2 _]]; apply number_step; [exact D|exact D2|discriminate]).
      change (32 :: ([34] ++ shown_name (pname t) ++ [34]) ++ 10 :: body) with (32 :: 34 :: (shown_name (pname t) ++ [34]) ++ 10 :: body).
      rewrite lexs_sp by discriminate.
      change (34 :: (shown_name (pname t) ++ [34]) ++ 10 :: body) with (([34] ++ shown_name (pname t) ++ [34]) ++ 10 :: body).
      rewrite (lexs_tok o _ ([34] ++ shown_name (pname t) ++ [34]) _ false true (TK_STR E8 (shown_name (pname t)))) by (apply name_step; exact SN).
      rewrite lexs_nl.
      destruct (BODY2 (S f0) true (negb first && pbol t)) as [v [V S]]; [unfold body in L; lia|]. unfold body. rewrite V. cbn [bind].
      rewrite orb_true_r. eexists. split; [reflexivity|]. apply sh_mark; try assumption. reflexivity.
    + cbn [app] in L |- *. destruct (BODY2 f first (negb first && pbol t) L) as [v [V S]]. rewrite V.
      replace (negb first && pbol t || first) with (first || pbol t) by (destruct first, (pbol t); reflexivity).
      eexists. split; [reflexivity|]. unfold marked in MK. apply sh_plain.
      * destruct P; [left; reflexivity|right]. destruct mark as [m|]; [|discriminate]. apply negb_false_iff, Nat.eqb_eq in MK. rewrite MK. reflexivity.
      * destruct P; [rewrite PM by reflexivity; exact S|]. destruct mark as [m|]; [|discriminate]. apply negb_false_iff, Nat.eqb_eq in MK. rewrite MK. exact S.
Qed.

(** *** Where runs come from *)
Lemma locs_ge o f : forall p off b s l, tokenize2 o f p off b s = Ok l -> forall t, In t l -> (off <= loc t)%nat.
Proof.
  induction f as [|f IH]; intros p off b s l H t I; [discriminate|]. cbn [tokenize2] in H.
  destruct p as [|c r]; [discriminate|]. destruct (c =? 0). { injection H as <-. destruct I as [<-|[]]. cbn [loc]. lia. }
  destruct (lex_step o (c :: r)) as [[|n|k n]| |]; cbn [bind] in H; try discriminate H.
  - specialize (IH _ _ _ _ _ H t I). lia.
  - specialize (IH _ _ _ _ _ H t I). lia.
  - ob H. injection H as <-. destruct I as [<-|I]; [cbn [loc]; lia|]. specialize (IH _ _ _ _ _ E t I). lia.
Qed.
Lemma run_lexrun o f : forall g off b s toks e, tokenize2 o f (concat (map ptext g) ++ [10; 0]) off b s = Ok (toks ++ [e]) ->
  map kind toks = map pkind g -> map loc toks = starts off g -> map tlen toks = map (fun t => length (ptext t)) g -> lexrun o g [10; 0].
Proof.
  induction f as [|f IH]; intros g off b s toks e H K LO TL; [discriminate|].
  destruct g as [|t g]; [exact Logic.I|]. destruct toks as [|a toks]; [discriminate|]. cbn [map starts] in K, LO, TL.
  injection K as K1 K2. injection LO as L1 L2. injection TL as T1 T2. cbn [map concat] in H. rewrite <- app_assoc in H.
  cbn [tokenize2] in H. destruct (ptext t ++ concat (map ptext g) ++ [10; 0]) as [|c r] eqn:E; [discriminate|].
  destruct (c =? 0). { exfalso. injection H as H. destruct toks; discriminate. }
  destruct (lex_step o (c :: r)) as [[|n|k n]| |] eqn:ST; cbn [bind] in H; try discriminate H.
  - pose proof (locs_ge o f _ _ _ _ _ H a (or_introl eq_refl)). lia.
  - pose proof (locs_ge o f _ _ _ _ _ H a (or_introl eq_refl)). destruct (space_head _ _ _ _ ST). lia.
  - ob H. apply (f_equal (fun x => match x with Ok y => y | _ => [] end)) in H. cbv beta iota in H. cbn [app] in H. injection H as HA HL. subst a a0.
    cbn [kind loc tlen] in *. subst k n. split; [rewrite E; exact ST|].
    rewrite <- E in E0. rewrite skipn_app, skipn_all, Nat.sub_diag in E0. cbn [skipn app] in E0.
    apply (IH _ _ _ _ _ _ E0 K2 L2 T2).
Qed.
Lemma runs_ok o P l : (forall g, In g (runs P l) -> run_reads o g) -> allruns o P l.
Proof.
  intros H g I. destruct (H g I) as [toks [e [T [_ [K [L TL]]]]]]. exact (run_lexrun o _ g 0 true false toks e T K L TL).
Qed.
Theorem print_reread o P l : (forall g, In g (runs P l) -> run_reads o g) -> (P = false -> Forall placed l) ->
  exists v, reads o (print_tokens P l) v /\ shown P true None l v.
Proof.
  intros R PL. destruct (print_ok o P l (length (print_tokens P l ++ [0])) true None) as [v [V S]]; [apply runs_ok, R|exact PL|reflexivity|apply le_n|].
  exists v. split; [apply reads_lexs, V|exact S].
Qed.

(** Tokens of a text *)
Lemma head_flags o f : forall p off b s t l, tokenize2 o f p off b s = Ok (t :: l) -> b || s = true -> at_bol t || has_space t = true.
Proof.
  induction f as [|f IH]; intros p off b s t l H B; [discriminate|]. cbn [tokenize2] in H.
  destruct p as [|c r]; [discriminate|]. destruct (c =? 0). { injection H as <- _. reflexivity. }
  destruct (lex_step o (c :: r)) as [[|n|k n]| |]; cbn [bind] in H; try discriminate H.
  - eapply IH; [exact H|reflexivity].
  - eapply IH; [exact H|apply orb_true_r].
  - ob H. injection H as <- _. exact B.
Qed.
Lemma tokenize2_nonempty o f : forall p off b s, tokenize2 o f p off b s <> Ok [].
Proof.
  induction f as [|f IH]; intros p off b s H; [discriminate|]. cbn [tokenize2] in H.
  destruct p as [|c r]; [discriminate|]. destruct (c =? 0); [discriminate|].
  destruct (lex_step o (c :: r)) as [[|n|k n]| |]; cbn [bind] in H; try discriminate H; try exact (IH _ _ _ _ H). ob H. discriminate.
Qed.
Definition glued (l : list ptok) : bool := match l with t :: _ => negb (pbol t) && negb (psp t) | [] => false end.
Section Source.
  Variables (o : lopt) (P : bool) (T : list Z) (fid : nat) (name : list Z) (ln : token -> Z).
  Let src := of_source T fid name ln.
  Lemma source_runs f : forall off b s toks e, tokenize2 o f (skipn off T) off b s = Ok (toks ++ [e]) ->
    allruns o P (map src toks) /\
    (b || s = false -> exists c r, gapch c /\ skipn off T = (if glued (map src toks) then concat (map ptext (hd [] (runs P (map src toks)))) else []) ++ c :: r).
  Proof.
    induction f as [|f IH]; intros off b s toks e H; [discriminate|]. cbn [tokenize2] in H.
    destruct (skipn off T) as [|c r] eqn:E; [discriminate|].
    assert (SK : forall n, skipn n (c :: r) = skipn (off + n) T) by (intros n; rewrite <- E, skipn_skipn; f_equal; lia).
    destruct (c =? 0) eqn:C0.
    { injection H as H. destruct toks as [|t toks]; [|destruct toks; discriminate]. split; [intros g []|]. intros _.
      exists c, r. split; [left; lia|reflexivity]. }
    destruct (lex_step o (c :: r)) as [[|n|k n]| |] eqn:ST; cbn [bind] in H; try discriminate H.
    - apply newline_head in ST. subst c.
      assert (R : r = skipn (S off) T) by (replace (S off) with (off + 1)%nat by lia; rewrite <- SK; reflexivity). rewrite R in H.
      destruct (IH _ _ _ _ _ H) as [A _]. split; [exact A|]. intros _. exists 10, r. split; [right; left; reflexivity|].
      destruct toks as [|t toks]; [reflexivity|].
      apply (head_flags o f _ _ _ _ t (toks ++ [e])) in H; [|reflexivity]. cbn [map glued]. unfold src at 1 2, of_source. cbn [pbol psp].
      destruct (at_bol t), (has_space t); try discriminate H; reflexivity.
    - destruct (space_head _ _ _ _ ST) as [_ G]. rewrite SK in H.
      destruct (IH _ _ _ _ _ H) as [A _]. split; [exact A|]. intros _. exists c, r. split; [exact G|].
      destruct toks as [|t toks]; [reflexivity|].
      apply (head_flags o f _ _ _ _ t (toks ++ [e])) in H; [|apply orb_true_r]. cbn [map glued]. unfold src at 1 2, of_source. cbn [pbol psp].
      destruct (at_bol t), (has_space t); try discriminate H; reflexivity.
    - rewrite SK in H. ob H. apply (f_equal (fun x => match x with Ok y => y | _ => [] end)) in H. cbv beta iota in H.
      destruct toks as [|t toks]; [exfalso; cbn [app] in H; injection H as _ ->; exact (tokenize2_nonempty _ _ _ _ _ _ E0)|].
      cbn [app] in H. injection H as HT HL. subst a t.
      destruct (IH _ _ _ _ _ E0) as [A SH]. destruct (SH eq_refl) as [c1 [r1 [G1 S1]]]. cbn [map].
      set (l := map src toks) in *. set (t := src (mktok k off n b s)).
      assert (LN : (n <= length (c :: r))%nat).
      { destruct (Nat.le_gt_cases n (length (c :: r))) as [X|X]; [exact X|]. rewrite <- SK, skipn_all2 in S1 by lia.
        destruct (if glued l then concat (map ptext (hd [] (runs P l))) else []); discriminate. }
      assert (TX : ptext t = firstn n (c :: r)) by (unfold t, src, of_source; cbn [ptext tlen loc]; rewrite E; reflexivity).
      assert (TLEN : length (ptext t) = n) by (rewrite TX, firstn_length; lia).
      assert (TE : c :: r = ptext t ++ (if glued l then concat (map ptext (hd [] (runs P l))) else []) ++ c1 :: r1) by (rewrite TX, <- S1, <- SK; symmetry; apply firstn_skipn).
      destruct (runs_cons P t l) as [g [gs [RE [RN RC]]]].
      assert (GX : concat (map ptext g) = (if glued l then concat (map ptext (hd [] (runs P l))) else []) /\ lexrun o g [10; 0] /\ forall h, In h gs -> In h (runs P l)).
      { destruct l as [|u l0] eqn:EL. { destruct (RN eq_refl) as [-> ->]. repeat split. intros h []. }
        destruct (RC u l0 eq_refl) as [h [hs [R2 J]]].
        assert (JG : joined P t u = glued (u :: l0)).
        { unfold joined. cbn [glued]. replace (pfile t) with (pfile u); [rewrite Nat.eqb_refl, orb_true_r, andb_true_r; reflexivity|].
          destruct toks as [|t1 toks]; [discriminate|]. unfold l in EL. cbn [map] in EL. injection EL as <- _. reflexivity. }
        rewrite JG in J. rewrite R2. cbn [hd]. destruct (glued (u :: l0)); destruct J as [-> ->].
        - split; [reflexivity|]. split; [apply A; rewrite R2; left; reflexivity|]. intros h0 I. right. exact I.
        - split; [reflexivity|]. split; [exact Logic.I|]. intros h0 I. exact I. }
      destruct GX as [G2 [G3 G4]]. split.
      + intros h I. rewrite RE in I. destruct I as [<-|I]; [|apply A, G4, I]. split; [|exact G3].
        rewrite G2. rewrite TE in ST. rewrite TLEN.
        rewrite <- TLEN in ST |- *. change (pkind t) with k.
        apply relex with (c := c1) (r := r1); [|exact G1|left; reflexivity|discriminate|exact ST].
        intros N. apply tok_head in ST. rewrite N in ST. cbn [length] in ST. lia.
      + intros B. exists c1, r1. split; [exact G1|]. rewrite RE. cbn [glued hd map concat]. change (pbol t) with b. change (psp t) with s.
        replace (negb b && negb s) with true by (destruct b, s; try discriminate B; reflexivity). cbn [andb]. rewrite G2, <- app_assoc. exact TE.
  Qed.
End Source.

Theorem source_reread o P b fid name ln toks e : tokenize o (b ++ [0]) = Ok (toks ++ [e]) ->
  (P = false -> forall t, In t toks -> plain_name name /\ 0 <= ln t < 2147483648) ->
  exists v, reads o (print_tokens P (map (of_source (b ++ [0]) fid name ln) toks)) v /\
    shown P true None (map (of_source (b ++ [0]) fid name ln) toks) v.
Proof.
  intros H PL. set (l := map (of_source (b ++ [0]) fid name ln) toks).
  destruct (print_ok o P l (length (print_tokens P l ++ [0])) true None) as [v [V S]].
  - exact (proj1 (source_runs o P (b ++ [0]) fid name ln _ 0 true false toks e H)).
  - intros PF. apply Forall_forall. intros t I. apply in_map_iff in I. destruct I as [u [<- I]]. exact (PL PF u I).
  - reflexivity.
  - apply le_n.
  - exists v. split; [apply reads_lexs, V|exact S].
Qed.

(** With -P *)
Lemma first_bol o f : forall p off s t l, tokenize2 o f p off true s = Ok (t :: l) -> at_bol t = true.
Proof.
  induction f as [|f IH]; intros p off s t l H; [discriminate|]. cbn [tokenize2] in H.
  destruct p as [|c r]; [discriminate|]. destruct (c =? 0). { injection H as <- _. reflexivity. }
  destruct (lex_step o (c :: r)) as [[|n|k n]| |]; cbn [bind] in H; try discriminate H.
  - eapply IH. exact H.
  - eapply IH. exact H.
  - ob H. injection H as <- _. reflexivity.
Qed.
Lemma shown_plain m l v : shown true false m l v -> v = map (fun t => (pkind t, ptext t, pbol t, psp t && negb (pbol t))) l.
Proof.
  revert v. induction l as [|t r IH]; intros v H; inversion H as [|? ? ? ? w A B|]; subst; [reflexivity| |discriminate].
  cbn [map orb]. rewrite (IH _ B). reflexivity.
Qed.
Theorem same_tokens o b fid name ln toks e : tokenize o (b ++ [0]) = Ok (toks ++ [e]) ->
  reads o (print_tokens true (map (of_source (b ++ [0]) fid name ln) toks))
    (map (fun t => (kind t, spelling (b ++ [0]) t, at_bol t, has_space t && negb (at_bol t))) toks).
Proof.
  intros H. destruct (source_reread o true b fid name ln toks e H ltac:(discriminate)) as [v [R S]].
  assert (E : v = map (fun t => (kind t, spelling (b ++ [0]) t, at_bol t, has_space t && negb (at_bol t))) toks); [|rewrite <- E; exact R].
  destruct toks as [|t toks]; [inversion S; reflexivity|]. apply first_bol in H.
  cbn [map] in S |- *. inversion S as [|? ? ? ? w A B|]; subst; [|discriminate].
  apply shown_plain in B. rewrite B, map_map. cbn [orb]. rewrite H. f_equal. unfold of_source, spelling. cbn [pkind ptext pbol psp]. rewrite H. reflexivity.
Qed.

(** *** The phases before *)
Lemma cstr_id p : ~ In 0 p -> cstr (p ++ [0]) = p ++ [0].
Proof.
  induction p as [|c p IH]; intros H; [reflexivity|]. cbn [app cstr In] in *. replace (c =? 0) with false by (symmetry; lia). rewrite IH by tauto. reflexivity.
Qed.
Lemma canon_id p : ~ In 0 p -> ~ In 13 p -> canonicalize_newline (p ++ [0]) = p ++ [0].
Proof.
  induction p as [|c p IH]; intros H K; [reflexivity|]. cbn [app canonicalize_newline In] in *.
  replace (c =? 0) with false by (symmetry; lia). replace (c =? 13) with false by (symmetry; lia). rewrite IH by tauto. reflexivity.
Qed.
Lemma splice_id p : ~ In 0 p -> (forall u w, p <> u ++ 92 :: 10 :: w) -> remove_backslash_newline (p ++ [0]) = p ++ [0].
Proof.
  unfold remove_backslash_newline. induction p as [|c p IH]; intros H K; [reflexivity|].
  assert (I : remove_backslash_newline2 0 (p ++ [0]) = p ++ [0]).
  { apply IH; [cbn [In] in H; tauto|]. intros u w E. apply (K (c :: u) w). rewrite E. reflexivity. }
  cbn [app remove_backslash_newline2 In repeat] in *. rewrite I.
  replace (c =? 0) with false by (symmetry; lia).
  destruct (c =? 92) eqn:C92.
  - apply Z.eqb_eq in C92. subst c. destruct (p ++ [0]) as [|d q] eqn:E; [destruct p; discriminate|].
    destruct (d =? 10) eqn:D; [|reflexivity]. exfalso. apply Z.eqb_eq in D. subst d. destruct p as [|d p]; [discriminate|]. cbn [app] in E. injection E as -> E.
    apply (K [] p). reflexivity.
  - destruct (c =? 10) eqn:C10; [|reflexivity]. apply Z.eqb_eq in C10. subst c. reflexivity.
Qed.
Lemma print_last P l : forall first mark, exists p, print_loop P first mark l = p ++ [10].
Proof.
  induction l as [|t r IH]; intros first mark; [exists []; reflexivity|]. cbn [print_loop].
  destruct (IH false (if marked P mark t then Some (pfile t) else mark)) as [p ->]. eexists. rewrite !app_assoc. reflexivity.
Qed.
Lemma print_bytes P c l : (c = 0 \/ c = 13) -> (forall t, In t l -> ~ In c (ptext t) /\ (P = false -> ~ In c (pname t) /\ 0 <= pline t < 2147483648)) ->
  forall first mark, ~ In c (print_loop P first mark l).
Proof.
  intros C. induction l as [|t r IH]; intros H first mark X; cbn [print_loop] in X; [destruct X as [X|[]]; lia|].
  destruct (H t (or_introl eq_refl)) as [H1 H2]. rewrite !in_app_iff in X. destruct X as [X|[X|[X|[X|X]]]].
  - destruct (marked P mark t) eqn:M; [|destruct X]. assert (PF : P = false) by (unfold marked in M; destruct P; [discriminate|reflexivity]). destruct (H2 PF) as [N1 N2].
    unfold marker in X. rewrite !in_app_iff in X. cbn [In] in X. destruct X as [X|[X|[X|[X|X]]]]; try lia.
    + destruct (int_ok _ N2) as [_ [D _]]. specialize (D c X). lia.
    + assert (E : In c (shown_name (pname t)) -> In c (pname t) \/ 0 < c < 13 \/ 13 < c).
      { intros Y. destruct (list_eq_dec Z.eq_dec (pname t) [45]) as [E|N]; [rewrite E in Y; cbn in Y; lia|].
        assert (E : shown_name (pname t) = pname t) by (unfold shown_name; repeat (match goal with |- context [match ?x with _ => _ end] => destruct x end; try reflexivity); congruence).
        rewrite E in Y. left. exact Y. }
      destruct (E X); [tauto|lia].
  - destruct (negb first && pbol t); [cbn [In] in X; lia|destruct X].
  - destruct (psp t && negb (pbol t)); [cbn [In] in X; lia|destruct X].
  - tauto.
  - revert X. apply IH. intros u I. apply H. right. exact I.
Qed.
Theorem file_phases P l :
  let out := print_tokens P l in
  l <> [] -> (forall t, In t l -> ptext t <> [] /\ ~ In 0 (ptext t) /\ ~ In 13 (ptext t) /\ (P = false -> ~ In 0 (pname t) /\ ~ In 13 (pname t) /\ 0 <= pline t < 2147483648)) ->
  firstn 3 out <> [239; 187; 191] -> (forall u w, out <> u ++ 92 :: 10 :: w) ->
  prepare false out = Ok (out ++ [0]).
Proof.
  intros out NE H BOM BS. destruct (print_last P l true None) as [p E].
  assert (T : terminate out = out ++ [0]).
  { unfold terminate, out, print_tokens. rewrite E. rewrite last_last. destruct (p ++ [10]) eqn:X; [destruct p; discriminate|reflexivity]. }
  assert (Z0 : ~ In 0 out) by (apply print_bytes; [left; reflexivity|]; intros t I; destruct (H t I) as [_ [A [_ B]]]; split; [exact A|]; intros PF; destruct (B PF) as [? [? ?]]; split; assumption).
  assert (Z13 : ~ In 13 out) by (apply print_bytes; [right; reflexivity|]; intros t I; destruct (H t I) as [_ [_ [A B]]]; split; [exact A|]; intros PF; destruct (B PF) as [? [? ?]]; split; assumption).
  unfold prepare. rewrite T.
  assert (L2 : (2 <= length out)%nat).
  { unfold out, print_tokens. destruct l as [|t r]; [congruence|]. cbn [print_loop]. rewrite !app_length.
    destruct (print_last P r false (if marked P None t then Some (pfile t) else None)) as [q Q]. rewrite Q, app_length. cbn [length].
    destruct (H t (or_introl eq_refl)) as [A _]. destruct (ptext t); [congruence|cbn [length]; lia]. }
  destruct out as [|a [|b q]] eqn:EO; try (cbn [length] in L2; lia). cbn [app].
  destruct (q ++ [0]) as [|c q'] eqn:EQ; [destruct q; discriminate|]. cbn [bind].
  assert (B3 : (a =? 239) && (b =? 187) && (c =? 191) = false).
  { destruct ((a =? 239) && (b =? 187) && (c =? 191)) eqn:X; [|reflexivity]. exfalso.
    destruct q as [|c0 q]; cbn [app] in EQ; injection EQ as ? ?; subst; [cbn in X; lia|]. apply BOM. cbn [firstn].
    assert (a = 239 /\ b = 187 /\ c = 191) as [-> [-> ->]] by lia. reflexivity. }
  rewrite B3. rewrite <- EQ. change (a :: b :: q ++ [0]) with ((a :: b :: q) ++ [0]). rewrite cstr_id, canon_id, splice_id by assumption. reflexivity.
Qed.
