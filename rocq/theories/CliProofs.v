(** Proofs about -D. *)
From Coq Require Import ZArith List Bool Lia.
From Verif Require Import Base LexSpec LexModel LexTok PrintModel PrintSpec PrintProofs CliSpec CliModel.
Import ListNotations.
Local Open Scope Z_scope.

Lemma low_letter : forall c, letter c = true -> Inrange (low c) 97 122 = true.
Proof.
  intros c H. unfold letter in H. unfold Inrange, low.
  assert (K : In c (map Z.of_nat (seq 65 26) ++ map Z.of_nat (seq 97 26))).
  { apply in_or_app. apply orb_true_iff in H. destruct H as [H|H]; apply andb_true_iff in H; destruct H; [left|right];
      apply in_map_iff; exists (Z.to_nat c); (split; [lia|apply in_seq; lia]). }
  clear H. cbn in K. repeat (destruct K as [<-|K]; [reflexivity|]). destruct K.
Qed.
Lemma word_alnum : forall c, word_char c = true -> Isalnum c || (c =? 95) = true.
Proof.
  intros c H. unfold word_char in H. unfold Isalnum. apply orb_true_iff in H. destruct H as [H|H]; [|rewrite H, !orb_true_r; reflexivity].
  apply orb_true_iff in H. destruct H as [H|H]; [rewrite (low_letter _ H); reflexivity|].
  change (Isdigit c) with (digit c). rewrite H, orb_true_r. reflexivity.
Qed.
Lemma word_range : forall c, word_char c = true -> 48 <= c <= 57 \/ 65 <= c <= 90 \/ c = 95 \/ 97 <= c <= 122.
Proof. intros c H. unfold word_char, letter, digit in H. lia. Qed.

(** The bytes that may end a name here. *)
Definition ender (d : Z) : Prop := d = 61 \/ d = 32 \/ d = 0.
Lemma ident_len : forall o s d q f first, forallb word_char s = true -> ender d -> (length s < f)%nat ->
  read_ident o f first (s ++ d :: q) = Ok (length s).
Proof.
  induction s as [|c s IH]; intros d q f first W D F; (destruct f as [|f]; [cbn [length] in F; lia|]).
  - cbn [app read_ident]. destruct D as [->|[->| ->]]; reflexivity.
  - cbn [forallb] in W. apply andb_true_iff in W. destruct W as [W1 W2]. pose proof (word_range _ W1). cbn [app read_ident length].
    destruct (Z.eqb_spec c 36); [lia|]. rewrite (word_alnum _ W1). rewrite (IH d q f false W2 D); [reflexivity|cbn [length] in F; lia].
Qed.

Lemma name_step : forall o s d q, plain_word s -> ender d -> lex_step o (s ++ d :: q) = Ok (Tok TK_IDENT (length s)).
Proof.
  intros o s d q [W [c [r [E DG]]]] D. pose proof (ident_len o s d q (length (s ++ d :: q)) true W D ltac:(rewrite app_length; cbn [length]; lia)) as RI.
  subst s. pose proof W as W0. cbn [forallb] in W0. apply andb_true_iff in W0. destruct W0 as [W1 W2].
  pose proof (word_range _ W1) as R.
  assert (N2 : forall k, k = 34 \/ k = 39 -> nth2 ((c :: r) ++ d :: q) =? k = false).
  { intros k K. unfold nth2. destruct r as [|y r]; cbn [app nth].
    - apply Z.eqb_neq. unfold ender in D. lia.
    - cbn [forallb] in W2. apply andb_true_iff in W2. destruct W2 as [W2 _]. apply word_range in W2. apply Z.eqb_neq. lia. }
  assert (N3 : (nth2 ((c :: r) ++ d :: q) =? 56) && (nth3 ((c :: r) ++ d :: q) =? 34) = false).
  { unfold nth2, nth3. destruct r as [|y [|z r]]; cbn [app nth].
    - apply andb_false_iff. left. apply Z.eqb_neq. unfold ender in D. lia.
    - apply andb_false_iff. right. apply Z.eqb_neq. unfold ender in D. lia.
    - cbn [forallb] in W2. apply andb_true_iff in W2. destruct W2 as [_ W2]. apply andb_true_iff in W2. destruct W2 as [W2 _]. apply word_range in W2.
      apply andb_false_iff. right. apply Z.eqb_neq. lia. }
  assert (NE : forall l, (forall x, In x l -> x <> c) -> existsb (Z.eqb c) l = false).
  { induction l as [|x l IHl]; intros H; [reflexivity|]. cbn [existsb]. rewrite (proj2 (Z.eqb_neq c x)); [apply IHl; intros; apply H; right; assumption|].
    intros ->. exact (H x (or_introl eq_refl) eq_refl). }
  assert (RP : read_punct o ((c :: r) ++ d :: q) = Ok 0%nat).
  { destruct ((c :: r) ++ d :: q) as [|c' [|d' q']] eqn:E; [discriminate E|destruct r; discriminate E|]. injection E as <- E. unfold read_punct. cbv zeta.
    rewrite (proj2 (Z.eqb_neq c 45)), (proj2 (Z.eqb_neq c 35)), (proj2 (Z.eqb_neq c 46)), (proj2 (Z.eqb_neq c 36)) by lia.
    rewrite !NE by (cbn [In]; intros; lia). reflexivity. }
  rewrite <- app_comm_cons in RI, RP, N2, N3. rewrite <- app_comm_cons. unfold lex_step.
  rewrite (proj2 (Z.eqb_neq c 10)), (proj2 (Z.eqb_neq c 47)), (proj2 (Z.eqb_neq c 46)), (proj2 (Z.eqb_neq c 34)), (proj2 (Z.eqb_neq c 39)) by lia.
  rewrite NE by (cbn [In]; intros; lia). cbn [andb]. change (Isdigit c) with (digit c). rewrite DG, RP. cbn [bind Nat.eqb negb].
  rewrite <- andb_assoc, N3. rewrite (N2 34), (N2 39) by tauto. rewrite !andb_false_r. rewrite RI. cbn [bind length Nat.eqb]. reflexivity.
Qed.

(** *** More fuel, flags *)
Lemma more_fuel : forall o f p off b s l, tokenize2 o f p off b s = Ok l -> forall f', (length p <= f')%nat -> tokenize2 o f' p off b s = Ok l.
Proof.
  induction f as [|f IH]; intros p off b s l H f' L; [discriminate|]. cbn [tokenize2] in H.
  destruct p as [|c r]; [discriminate|]. destruct f' as [|f']; [cbn [length] in L; lia|]. cbn [tokenize2]. destruct (c =? 0); [exact H|].
  destruct (lex_step o (c :: r)) as [[|n|k n]| |] eqn:E; cbn [bind] in *; try discriminate H.
  - apply (IH _ _ _ _ _ H). cbn [length] in L. lia.
  - apply (IH _ _ _ _ _ H). destruct (space_head _ _ _ _ E). rewrite skipn_length. cbn [length] in *. lia.
  - destruct (tok_head _ _ _ _ E) as [N _]. destruct (tokenize2 o f (skipn n (c :: r)) (off + n) false false) as [l0| |] eqn:E0; cbn [bind] in H; try discriminate H.
    rewrite (IH _ _ _ _ _ E0) by (rewrite skipn_length; cbn [length] in *; lia). exact H.
Qed.
Lemma head_space : forall o f p off b l, ~ In 10 p -> tokenize2 o f p off b true = Ok l -> set_space l = l.
Proof.
  induction f as [|f IH]; intros p off b l N H; [discriminate|]. cbn [tokenize2] in H.
  destruct p as [|c r]; [discriminate|]. destruct (c =? 0); [injection H as <-; reflexivity|].
  destruct (lex_step o (c :: r)) as [[|n|k n]| |] eqn:E; cbn [bind] in *; try discriminate H.
  - apply newline_head in E. subst c. destruct N. left. reflexivity.
  - refine (IH _ _ _ _ _ H). intros K. apply N. rewrite <- (firstn_skipn n (c :: r)). apply in_or_app. right. exact K.
  - destruct (tokenize2 o f (skipn n (c :: r)) (off + n) false false) as [l0| |]; cbn [bind] in H; try discriminate H. injection H as <-. reflexivity.
Qed.
Lemma flag_space : forall o f p off b l, ~ In 10 p -> tokenize2 o f p off b true = Ok l ->
  exists l', tokenize2 o f p off b false = Ok l' /\ set_space l' = l.
Proof.
  intros o f p off b l N H. pose proof (head_space _ _ _ _ _ _ N H) as HS. destruct f as [|f]; [discriminate|]. cbn [tokenize2] in *.
  destruct p as [|c r]; [discriminate|]. destruct (c =? 0); [injection H as <-; eexists; split; reflexivity|].
  destruct (lex_step o (c :: r)) as [[|n|k n]| |] eqn:E; cbn [bind] in *; try discriminate H.
  - exists l. split; [exact H|exact HS].
  - exists l. split; [exact H|exact HS].
  - destruct (tokenize2 o f (skipn n (c :: r)) (off + n) false false) as [l0| |]; cbn [bind] in *; try discriminate H. injection H as <-.
    eexists. split; reflexivity.
Qed.

Lemma run_len : forall p n, run_of 32 p = Ok n -> (n <= length p)%nat /\ forall k, (n = Datatypes.S k) -> exists r, p = 32 :: r /\ run_of 32 r = Ok k.
Proof.
  intros p n H. split; [exact (proj1 (run_of_spec _ _ _ H))|]. intros k ->. destruct p as [|c r]; [discriminate|]. cbn [run_of] in H.
  destruct (Z.eqb_spec c 32) as [->|]; [|discriminate H]. exists r. split; [reflexivity|]. destruct (run_of 32 r); cbn [bind] in H; try discriminate H. injection H as ->. reflexivity.
Qed.
Lemma blank_step : forall o q, lex_step o (32 :: q) = do n <- run_of 32 q; Ok (Space (Datatypes.S n)).
Proof. reflexivity. Qed.
Lemma eq_step : forall o c q, c <> 61 -> lex_step o (61 :: c :: q) = Ok (Tok TK_PUNCT 1).
Proof.
  intros o c q N. unfold lex_step, read_punct. change (61 =? 10) with false. change (existsb (Z.eqb 61) [32; 9; 11; 12]) with false.
  change (61 =? 47) with false. change (61 =? 46) with false. change (Isdigit 61) with false. cbn [andb]. cbv zeta.
  change (61 =? 45) with false. change (existsb (Z.eqb 61) [45; 38; 43; 61; 124]) with true. cbn [andb].
  rewrite (proj2 (Z.eqb_neq c 61) N). reflexivity.
Qed.

Lemma skipn_name : forall (s q : list Z), skipn (length s) (s ++ q) = q.
Proof. intros. rewrite skipn_app, Nat.sub_diag, skipn_all. reflexivity. Qed.

(** The tokens of name=body and of "name body". *)
Lemma both : forall o name body l, plain_word name -> ~ In 10 body -> hd 0 body <> 61 ->
  tokenize o (name ++ 32 :: body ++ [0]) = Ok l ->
  let t := mktok TK_IDENT 0 (length name) true false in
  exists T, l = t :: set_space T /\
    tokenize o (name ++ 61 :: body ++ [0]) = Ok (t :: mktok TK_PUNCT (length name) 1 false false :: T) /\
    (forall x, In x (set_space T) -> (length name < loc x)%nat).
Proof.
  intros o name body l W N10 HQ H t. destruct (proj2 W) as [c0 [r0 [E0 _]]].
  assert (NZ : (1 <= length name)%nat) by (subst name; cbn [length]; lia).
  assert (C0 : c0 =? 0 = false).
  { destruct W as [W _]. subst name. cbn [forallb] in W. apply andb_true_iff in W. destruct W as [W _]. apply word_range in W. lia. }
  unfold tokenize in *. rewrite app_length in *. cbn [length] in *. rewrite app_length in *. cbn [length] in *.
  remember (length name) as n0 eqn:EN.
  replace (n0 + Datatypes.S (length body + 1))%nat with (Datatypes.S (Datatypes.S (n0 + length body))) in * by lia.
  remember (Datatypes.S (n0 + length body)) as F eqn:EF.
  assert (P : forall d q, name ++ d :: q = c0 :: (r0 ++ d :: q)) by (intros; subst name; reflexivity).
  assert (NM : forall d q, ender d -> tokenize2 o (Datatypes.S F) (name ++ d :: q) 0 true false = do l <- tokenize2 o F (d :: q) n0 false false; Ok (t :: l)).
  { intros d q D. cbn [tokenize2]. rewrite P, C0, <- P. rewrite (name_step o name d q W D). cbn [bind]. rewrite skipn_name, <- EN. reflexivity. }
  rewrite NM in H by (right; left; reflexivity). rewrite NM by (left; reflexivity).
  destruct (tokenize2 o F (32 :: body ++ [0]) n0 false false) as [l0| |] eqn:H0; cbn [bind] in H; try discriminate H. injection H as <-.
  rewrite EF in H0 |- *. cbn [tokenize2] in H0 |- *. change (32 =? 0) with false in H0. change (61 =? 0) with false. cbv iota in H0 |- *.
  rewrite blank_step in H0. destruct (run_of 32 (body ++ [0])) as [n| |] eqn:RN; cbn [bind] in H0; try discriminate H0.
  destruct (run_len _ _ RN) as [LN RK].
  assert (EQ : lex_step o (61 :: body ++ [0]) = Ok (Tok TK_PUNCT 1)).
  { destruct body as [|y body]; [apply eq_step; lia|]. apply eq_step. exact HQ. }
  rewrite EQ. cbn [bind skipn]. cbn [skipn] in H0.
  assert (NB : ~ In 10 (body ++ [0])) by (intros K; apply in_app_or in K; destruct K as [K|[K|[]]]; [exact (N10 K)|lia]).
  assert (X : exists T, tokenize2 o (n0 + length body) (body ++ [0]) (n0 + 1) false false = Ok T /\ set_space T = l0).
  { destruct n as [|n].
    - cbn [skipn] in H0. destruct (flag_space _ _ _ _ _ _ NB H0) as [T [T1 T2]]. exists T. split; assumption.
    - destruct (RK n eq_refl) as [r [ER RR]]. exists l0. split.
      + rewrite ER in *. replace (n0 + length body)%nat with (Datatypes.S (n0 + length body - 1)) by lia. cbn [tokenize2]. change (32 =? 0) with false. cbv iota.
        rewrite blank_step, RR. cbn [bind]. replace (n0 + 1 + Datatypes.S n)%nat with (n0 + Datatypes.S (Datatypes.S n))%nat by lia.
        refine (more_fuel _ _ _ _ _ _ _ H0 _ _). rewrite skipn_length. rewrite <- ER, app_length. cbn [length]. lia.
      + refine (head_space _ _ _ _ _ _ _ H0). intros K. apply NB. rewrite <- (firstn_skipn (Datatypes.S n) (body ++ [0])). apply in_or_app. right. exact K. }
  destruct X as [T [X1 X2]]. exists T. rewrite X1, X2. cbn [bind]. split; [reflexivity|]. split; [reflexivity|].
  intros x K. pose proof (locs_ge _ _ _ _ _ _ _ H0 x K). lia.
Qed.

Lemma loop_all : forall buf toks e f, (length toks < f)%nat -> body_loop f buf true (toks ++ [e]) = Ok (map (fun t => in_body (see buf t)) toks).
Proof.
  intros buf toks. induction toks as [|t toks IH]; intros e f L; (destruct f as [|f]; [lia|]); [reflexivity|].
  cbn [length] in L. cbn [app body_loop map negb andb]. rewrite IH by lia. destruct (toks ++ [e]) eqn:E; [destruct toks; discriminate E|]. reflexivity.
Qed.
Lemma set_space_len : forall l, length (set_space l) = length l.
Proof. destruct l; reflexivity. Qed.

Lemma bytes_eq_refl : forall a, bytes_eq a a = true.
Proof. induction a as [|x a IH]; [reflexivity|]. cbn [bytes_eq]. rewrite Z.eqb_refl. exact IH. Qed.
Lemma no_eq_word : forall name q, forallb word_char name = true -> blank_eq (name ++ q) = match blank_eq q with Some t => Some (name ++ t) | None => None end.
Proof.
  induction name as [|c name IH]; intros q W; [cbn [app]; destruct (blank_eq q); reflexivity|]. cbn [forallb] in W. apply andb_true_iff in W. destruct W as [W1 W2].
  apply word_range in W1. cbn [app blank_eq]. destruct (Z.eqb_spec c 61); [lia|]. rewrite (IH q W2). destruct (blank_eq q); reflexivity.
Qed.

Theorem cli_value : forall o name body n v, plain_word name -> ~ In 10 body -> hd 0 body <> 61 ->
  says_define o (directive_text (name ++ 61 :: body)) n v ->
  define_macro_cli o (name ++ 61 :: body) = Ok (Some (n, v)).
Proof.
  intros o name body n v W N10 HQ [x [l [[toks [e [TK [KE MP]]]] [IX IL]]]].
  unfold directive_text in TK, MP. rewrite (no_eq_word _ _ (proj1 W)) in TK, MP. change (blank_eq (61 :: body)) with (Some (32 :: body)) in TK, MP. cbv iota in TK, MP.
  rewrite <- app_assoc in TK, MP. cbn [app] in TK, MP.
  destruct (both o name body _ W N10 HQ TK) as [T [E1 [E2 LOC]]].
  destruct toks as [|t0 toks]; [discriminate MP|]. cbn [app] in E1. injection E1 as E0 E1. cbn [map] in MP. injection MP as MX ML.
  unfold define_macro_cli. cbv zeta. rewrite <- app_assoc. cbn [app]. rewrite E2. cbn [bind kind].
  set (R := name ++ 32 :: body ++ [0]) in *. set (Lb := name ++ 61 :: body ++ [0]).
  assert (SQ : spelling Lb (mktok TK_PUNCT (length name) 1 false false) = [61]).
  { unfold spelling, Lb. cbn [tlen loc]. rewrite skipn_name. reflexivity. }
  unfold is_text at 1. rewrite SQ. change (bytes_eq [61] [40]) with false. rewrite andb_false_r.
  assert (T <> []) by (intros ->; destruct toks; discriminate E1).
  assert (LE : length T = Datatypes.S (length toks)) by (rewrite <- set_space_len, <- E1, app_length; cbn [length]; lia).
  cbn [length body_loop]. destruct T as [|t1 T]; [congruence|]. cbn [negb andb]. unfold is_text. rewrite SQ, bytes_eq_refl.
  rewrite <- E1. rewrite loop_all by lia. cbn [bind]. do 3 f_equal.
  - rewrite <- MX, E0 in IX. unfold see in IX. cbn [in_body] in IX. injection IX as IX. rewrite <- IX. unfold spelling, Lb, R. cbn [tlen loc skipn].
    rewrite !firstn_app, Nat.sub_diag, firstn_all, !firstn_O. reflexivity.
  - rewrite <- IL, <- ML, map_map. apply map_ext_in. intros y K. unfold see. cbn [in_body]. do 2 f_equal. unfold spelling. f_equal.
    assert (LY : (length name < loc y)%nat) by (apply LOC; rewrite <- E1; apply in_or_app; left; exact K).
    unfold Lb, R. rewrite !skipn_app. f_equal. destruct (loc y - length name)%nat eqn:EL; [lia|]. reflexivity.
Qed.

Theorem cli_name : forall o name, plain_word name ->
  says_define o (directive_text name) name [one] /\ define_macro_cli o name = Ok (Some (name, [one])).
Proof.
  intros o name W. pose proof (proj2 W) as [c0 [r0 [E0 _]]].
  assert (C0 : c0 =? 0 = false).
  { pose proof (proj1 W) as W'. subst name. cbn [forallb] in W'. apply andb_true_iff in W'. destruct W' as [W' _]. apply word_range in W'. lia. }
  assert (P : forall d q, name ++ d :: q = c0 :: (r0 ++ d :: q)) by (intros; subst name; reflexivity).
  assert (NM : forall F d q, ender d -> tokenize2 o (Datatypes.S F) (name ++ d :: q) 0 true false =
    do l <- tokenize2 o F (d :: q) (length name) false false; Ok (mktok TK_IDENT 0 (length name) true false :: l)).
  { intros F d q D. cbn [tokenize2]. rewrite P, C0, <- P. rewrite (name_step o name d q W D). cbn [bind]. rewrite skipn_name. reflexivity. }
  assert (SN : forall q, spelling (name ++ q) (mktok TK_IDENT 0 (length name) true false) = name).
  { intros q. unfold spelling. cbn [tlen loc skipn]. rewrite firstn_app, Nat.sub_diag, firstn_all, firstn_O, app_nil_r. reflexivity. }
  assert (NZ : exists m, length name = Datatypes.S m) by (subst name; cbn [length]; eexists; reflexivity). destruct NZ as [m NZ].
  split.
  - unfold directive_text. replace (blank_eq name) with (@None (list Z)) by (rewrite <- (app_nil_r name), (no_eq_word _ _ (proj1 W)); reflexivity).
    exists (TK_IDENT, name, true, false), [(TK_PP_NUM, [49], false, true)]. split; [|split; reflexivity].
    exists [mktok TK_IDENT 0 (length name) true false; mktok TK_PP_NUM (length name + 1) 1 false true], (mktok TK_EOF (length name + 2) 0 true false).
    split; [|split; [reflexivity|]].
    + rewrite <- app_assoc. cbn [app]. unfold tokenize. rewrite app_length, NZ. cbn [length]. replace (Datatypes.S m + 3)%nat with (Datatypes.S (Datatypes.S (Datatypes.S (Datatypes.S m)))) by lia.
      rewrite NM by (right; left; reflexivity).
      assert (TL : tokenize2 o (Datatypes.S (Datatypes.S (Datatypes.S m))) [32; 49; 0] (length name) false false =
        Ok [mktok TK_PP_NUM (length name + 1) 1 false true; mktok TK_EOF (length name + 1 + 1) 0 true false]) by (destruct o as [[]]; reflexivity).
      rewrite TL. cbn [bind app]. replace (length name + 1 + 1)%nat with (length name + 2)%nat by lia. rewrite <- NZ. reflexivity.
    + cbn [map]. unfold see. cbn [kind at_bol has_space]. rewrite <- app_assoc, SN. unfold spelling. cbn [tlen loc].
      replace (skipn (length name + 1) (name ++ [32; 49] ++ [0])) with [49; 0]; [reflexivity|].
      rewrite skipn_app. rewrite skipn_all2 by lia. replace (length name + 1 - length name)%nat with 1%nat by lia. reflexivity.
  - unfold define_macro_cli. cbv zeta. unfold tokenize. rewrite app_length, NZ. cbn [length]. replace (Datatypes.S m + 1)%nat with (Datatypes.S (Datatypes.S m)) by lia.
    rewrite NM by (right; right; reflexivity). cbn [tokenize2]. change (0 =? 0) with true. cbv iota. cbn [bind kind].
    assert (SE : is_text (name ++ [0]) (mktok TK_EOF (length name) 0 true false) [40] = false) by reflexivity.
    rewrite SE, andb_false_r. cbn [length body_loop bind]. rewrite SN. reflexivity.
Qed.
