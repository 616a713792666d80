(** C07: tokenizing stays inside the text. *)
From Coq Require Import ZArith List Bool Lia.
From Verif Require Import Base IntModel UnicodeModel UnicodeProofs LexSpec LexModel.
Import ListNotations.
Local Open Scope Z_scope.

(** [r] is not UB and its result is at most [B]. *)
Definition within (r : outcome nat) (B : nat) : Prop := r <> UB /\ forall n, r = Ok n -> (n <= B)%nat.
Definition within2 {A} (r : outcome (A * nat)) (B : nat) : Prop :=
  r <> UB /\ forall x n, r = Ok (x, n) -> (n <= B)%nat.

Lemma within_ok n B : (n <= B)%nat -> within (Ok n) B.
Proof. intros. split; [discriminate|]. intros ? [= <-]. auto. Qed.
Lemma within_abort B : within Abort B.
Proof. split; discriminate. Qed.
Lemma within_add (k : nat) r B B' : within r B -> (k + B <= B')%nat -> within (do n <- r; Ok (k + n)%nat) B'.
Proof. intros [H1 H2] H. destruct r; cbn [bind]; split; try discriminate; try congruence. intros n [= <-]. specialize (H2 a eq_refl). lia. Qed.
Lemma within_S r B B' : within r B -> (S B <= B')%nat -> within (do n <- r; Ok (S n)) B'.
Proof. intros H L. exact (within_add 1 r B B' H L). Qed.
Lemma within2_ok {A} (x : A) n B : (n <= B)%nat -> within2 (Ok (x, n)) B.
Proof. intros. split; [discriminate|]. intros ? ? [= <- <-]. auto. Qed.

Lemma skipn_term n (b : list Z) : (n <= length b)%nat -> skipn n (b ++ [0]) = skipn n b ++ [0].
Proof. intros. rewrite skipn_app. replace (n - length b)%nat with 0%nat by lia. reflexivity. Qed.
Lemma no0_skipn n (b : list Z) : ~ In 0 b -> ~ In 0 (skipn n b).
Proof. intros N H. apply N. rewrite <- (firstn_skipn n b). apply in_or_app. right. exact H. Qed.

(** Nothing left, or the text ends with a newline. *)
Definition nl_end (b : list Z) : Prop := b = [] \/ last b 0 = 10.
Lemma nl_skipn n b : nl_end b -> nl_end (skipn n b).
Proof.
  intros H. destruct (le_lt_dec (length b) n) as [L|L]; [left; apply skipn_all2; exact L|].
  right. destruct H as [->|H]; [cbn [length] in L; lia|]. rewrite <- (firstn_skipn n b) in H.
  destruct (skipn n b) as [|x l] eqn:E; [exfalso; apply (f_equal (@length Z)) in E; rewrite skipn_length in E; cbn in E; lia|].
  revert H. clear. revert n x l. induction b as [|a b IH]; intros n x l; [destruct n; auto|].
  destruct n; [auto|]. cbn [firstn app]. intros H. apply (IH n). rewrite <- H.
  destruct (firstn n b ++ x :: l) eqn:Q; [destruct (firstn n b); discriminate|]. reflexivity.
Qed.

Lemma run_of_ok c b : c <> 0 -> within (run_of c (b ++ [0])) (length b).
Proof.
  intros C. induction b as [|d b IH]; cbn [app run_of length].
  - destruct (Z.eqb_spec 0 c); [congruence|]. apply within_ok. lia.
  - destruct (d =? c); [eapply within_S; [exact IH|lia]|apply within_ok; lia].
Qed.

Lemma to_newline_ok b : In 10 b -> within (to_newline (b ++ [0])) (length b).
Proof.
  induction b as [|d b IH]; intros H; [destruct H|]. cbn [app to_newline length].
  destruct (Z.eqb_spec d 10) as [->|]; [apply within_ok; lia|]. destruct H as [H|H]; [congruence|].
  eapply within_S; [apply IH; exact H|lia].
Qed.

Lemma comment_end_ok b : ~ In 0 b -> comment_end (b ++ [0]) <> UB /\ forall n, comment_end (b ++ [0]) = Ok n -> (n + 2 <= length b)%nat.
Proof.
  induction b as [|c b IH]; intros N; [split; discriminate|].
  assert (Nc : c <> 0) by (intros ->; apply N; left; reflexivity). apply Z.eqb_neq in Nc.
  destruct (IH (fun X => N (or_intror X))) as [I1 I2]. cbn [app comment_end length]. rewrite Nc.
  assert (REC : (do n <- comment_end (b ++ [0]); Ok (S n)) <> UB /\ forall n, (do n <- comment_end (b ++ [0]); Ok (S n)) = Ok n -> (n + 2 <= S (length b))%nat).
  { destruct (comment_end (b ++ [0])); cbn [bind]; split; try discriminate; try congruence. intros n [= <-]. specialize (I2 a eq_refl). lia. }
  destruct (c =? 42); cbn [bind]; [|exact REC].
  destruct b as [|d b]; [cbn [app bind]; exact REC|]. cbn [app bind]. destruct (Z.eqb_spec d 47); [|exact REC].
  split; [discriminate|]. intros n [= <-]. cbn [length]. lia.
Qed.

Lemma decode_ok b : b <> [] -> decode_utf8 (b ++ [0]) <> UB /\ forall c n, decode_utf8 (b ++ [0]) = Ok (c, n) -> (1 <= n <= length b)%nat.
Proof. intros H. exact (decode_nul b [] H). Qed.

Lemma read_ident_ok o f : forall first b, ~ In 0 b -> (length b < f)%nat -> within (read_ident o f first (b ++ [0])) (length b).
Proof.
  induction f as [|f IH]; intros first b N L; [lia|]. destruct b as [|c b].
  - cbn [app read_ident]. apply within_ok. lia.
  - cbn [app]. cbn [length] in *.
    assert (ONE : within (do n <- read_ident o f false (b ++ [0]); Ok (S n)) (S (length b))).
    { eapply within_S; [apply IH; [intros X; apply N; right; exact X|lia]|lia]. }
    cbn [read_ident]. destruct (c =? 36); [destruct (asm_pp o); [apply within_ok; lia|exact ONE]|].
    destruct (Isalnum c || (c =? 95)); [exact ONE|]. destruct (128 <=? c); [|apply within_ok; lia].
    change (c :: b ++ [0]) with ((c :: b) ++ [0]). destruct (decode_ok (c :: b) ltac:(discriminate)) as [D1 D2].
    destruct (decode_utf8 ((c :: b) ++ [0])) as [[u k]| |]; cbn [bind fst snd]; [|congruence|apply within_abort].
    specialize (D2 u k eq_refl). cbn [length] in D2. destruct (if first then is_ident1 u else is_ident2 u); [|apply within_ok; lia].
    rewrite skipn_term by (cbn [length]; lia).
    eapply within_add; [apply IH; [apply no0_skipn; exact N|rewrite skipn_length; cbn [length]; lia]|rewrite skipn_length; cbn [length]; lia].
Qed.

Lemma pp_number_ok o f : forall b, ~ In 0 b -> (length b < f)%nat -> within (pp_number o f (b ++ [0])) (length b).
Proof.
  induction f as [|f IH]; intros b N L; [lia|]. destruct b as [|c b]; [cbn [app pp_number]; apply within_ok; lia|].
  cbn [length] in L.
  assert (GO : forall k, (1 <= k <= S (length b))%nat -> within (do n <- pp_number o f (skipn k ((c :: b) ++ [0])); Ok (k + n)%nat) (S (length b))).
  { intros k Hk. rewrite skipn_term by (cbn [length]; lia).
    eapply within_add; [apply IH; [apply no0_skipn; exact N|rewrite skipn_length; cbn [length]; lia]|rewrite skipn_length; cbn [length]; lia]. }
  assert (Nc : c <> 0) by (intros ->; apply N; left; reflexivity). apply Z.eqb_neq in Nc.
  cbn [pp_number app length]. change (c :: b ++ [0]) with ((c :: b) ++ [0]).
  set (go := fun k => do n <- pp_number o f (skipn k ((c :: b) ++ [0])); Ok (k + n)%nat) in *.
  assert (REST : within (if c =? 36 then if asm_pp o then Ok 0%nat else go 1%nat
            else if Isalnum c || (c =? 95) then go 1%nat
            else if 128 <=? c then do q <- decode_utf8 ((c :: b) ++ [0]); if is_ident2 (fst q) then go (snd q) else Ok 0%nat
            else Ok 0%nat) (S (length b))).
  { destruct (c =? 36); [destruct (asm_pp o); [apply within_ok; lia|apply GO; lia]|].
    destruct (Isalnum c || (c =? 95)); [apply GO; lia|]. destruct (128 <=? c); [|apply within_ok; lia].
    destruct (decode_ok (c :: b) ltac:(discriminate)) as [D1 D2].
    destruct (decode_utf8 ((c :: b) ++ [0])) as [[u k]| |]; cbn [bind fst snd]; [|congruence|apply within_abort].
    specialize (D2 u k eq_refl). cbn [length] in D2. destruct (is_ident2 u); [apply GO; lia|apply within_ok; lia]. }
  destruct (c =? 46); [apply GO; lia|].
  assert (TWO : forall d r, b ++ [0] = d :: r -> d <> 0 -> (2 <= S (length b))%nat).
  { intros d r E Nd. destruct b; [injection E as <- <-; congruence|cbn [length]; lia]. }
  destruct (c =? 39).
  - destruct (b ++ [0]) as [|d r] eqn:E; [destruct b; discriminate|]. destruct (Isalnum d) eqn:A; [|exact REST].
    apply GO. split; [lia|]. eapply TWO; [reflexivity|]. intros ->. discriminate A.
  - rewrite Nc. destruct (b ++ [0]) as [|d r] eqn:E; [destruct b; discriminate|].
    destruct (existsb (Z.eqb c) _ && existsb (Z.eqb d) [43; 45]) eqn:A; [|exact REST].
    apply GO. split; [lia|]. eapply TWO; [reflexivity|]. intros ->. apply andb_true_iff in A. destruct A as [_ A]. discriminate A.
Qed.

Lemma read_punct_ok o c b : c <> 0 -> within (read_punct o (c :: b ++ [0])) (S (length b)).
Proof.
  intros Nc. unfold read_punct. destruct b as [|d b].
  - cbn [app length].
    assert (R0 : (0 =? c) = false) by (apply Z.eqb_neq; congruence). rewrite R0. change (0 =? 61) with false. change (0 =? 62) with false.
    rewrite !andb_false_r. cbn [orb].
    repeat match goal with |- context [if ?x then _ else _] => destruct x end; apply within_ok; lia.
  - cbn [app length]. destruct (b ++ [0]) as [|e r] eqn:E; [destruct b; discriminate|].
    assert (W3 : e <> 0 -> (3 <= S (S (length b)))%nat).
    { intros Ne. destruct b; [injection E as <- <-; congruence|cbn [length]; lia]. }
    destruct ((c =? 45) && (d =? 62)); [apply within_ok; lia|].
    destruct (existsb _ [45; 38; 43; 61; 124]); [destruct ((d =? c) || (d =? 61)); apply within_ok; lia|].
    destruct (existsb _ [60; 62] && (d =? c)).
    { destruct (Z.eqb_spec e 61); apply within_ok; [apply W3; lia|lia]. }
    destruct (existsb _ [60; 62; 33; 37; 42; 47; 94]); [destruct (d =? 61); apply within_ok; lia|].
    destruct (c =? 35); [destruct (d =? c); apply within_ok; lia|].
    destruct (Z.eqb_spec c 46) as [->|].
    { destruct (d =? 46); [|apply within_ok; lia]. destruct (Z.eqb_spec e 46); apply within_ok; [apply W3; lia|lia]. }
    destruct (c =? 36); [destruct (asm_pp o); apply within_ok; lia|].
    destruct (existsb _ _); apply within_ok; lia.
Qed.

Lemma string_end_ok b : ~ In 0 b -> nl_end b ->
  string_literal_end (b ++ [0]) <> UB /\ forall n, string_literal_end (b ++ [0]) = Ok n -> (n + 1 <= length b)%nat.
Proof.
  remember (length b) as k eqn:K. revert b K. induction k as [k IH] using lt_wf_ind. intros b -> N E.
  destruct b as [|c b]; [split; discriminate|]. cbn [app string_literal_end length].
  destruct (c =? 34); [split; [discriminate|intros n [= <-]; lia]|].
  destruct ((c =? 10) || (c =? 0)) eqn:C10; [split; discriminate|].
  assert (N1 : ~ In 0 b) by (intros X; apply N; right; exact X).
  assert (E1 : nl_end b) by exact (nl_skipn 1 _ E).
  destruct (Z.eqb_spec c 92) as [->|].
  - destruct b as [|d b]; [destruct E as [E|E]; [discriminate|cbn in E; discriminate]|].
    cbn [app]. assert (N2 : ~ In 0 b) by (intros X; apply N1; right; exact X).
    assert (E2 : nl_end b) by exact (nl_skipn 1 _ E1).
    destruct (IH (length b) ltac:(cbn [length]; lia) b eq_refl N2 E2) as [I1 I2].
    destruct (string_literal_end (b ++ [0])); cbn [bind]; split; try discriminate; try congruence.
    intros n [= <-]. specialize (I2 a eq_refl). cbn [length]. lia.
  - destruct (IH (length b) ltac:(cbn [length]; lia) b eq_refl N1 E1) as [I1 I2].
    destruct (string_literal_end (b ++ [0])); cbn [bind]; split; try discriminate; try congruence.
    intros n' [= <-]. specialize (I2 a eq_refl). lia.
Qed.

Lemma read_hex_ok b : forall c, within2 (read_hex c (b ++ [0])) (length b).
Proof.
  induction b as [|d b IH]; intros c; cbn [app read_hex length].
  - apply within2_ok. lia.
  - destruct (Isxdigit d); [|apply within2_ok; lia]. destruct (IH ((c * 16 + from_hex d) mod two32)) as [H1 H2].
    destruct (read_hex _ (b ++ [0])) as [[x k]| |]; cbn [bind]; split; try discriminate; try congruence.
    intros y n [= <- <-]. specialize (H2 x k eq_refl). cbn [snd]. lia.
Qed.

(** An escape never needs a byte past the terminator; it ends before the terminator unless it is
    the terminator that is escaped. *)
Lemma escape_ok b : read_escaped_char (b ++ [0]) <> UB /\
  (b <> [] -> forall x n, read_escaped_char (b ++ [0]) = Ok (x, n) -> (n <= length b)%nat).
Proof.
  destruct b as [|c b]; [cbn; split; [discriminate|congruence]|]. cbn [app read_escaped_char length].
  destruct (Inrange c 48 55).
  - destruct b as [|d b]; cbn [app].
    + split; [discriminate|]. intros _ x n [= <- <-]. lia.
    + cbn [length]. destruct (Inrange d 48 55); [|split; [discriminate|intros _ x n [= <- <-]; lia]].
      destruct b as [|e b]; cbn [app length]; [split; [discriminate|intros _ x n [= <- <-]; lia]|].
      destruct (Inrange e 48 55); (split; [discriminate|intros _ x n [= <- <-]; lia]).
  - destruct (c =? 120); [|split; [discriminate|intros _ x n [= <- <-]; lia]].
    destruct (b ++ [0]) as [|d r] eqn:E; [destruct b; discriminate|]. destruct (Isxdigit d); [|split; discriminate].
    rewrite <- E. destruct (read_hex_ok b 0) as [H1 H2].
    destruct (read_hex 0 (b ++ [0])) as [[x k]| |]; cbn [bind fst snd]; split; try discriminate; try congruence.
    intros _ y n [= <- <-]. specialize (H2 x k eq_refl). lia.
Qed.
Lemma escape_pos p x n : read_escaped_char p = Ok (x, n) -> (1 <= n)%nat.
Proof.
  unfold read_escaped_char. destruct p as [|c r]; [discriminate|]. destruct (Inrange c 48 55).
  - destruct r as [|d r]; [discriminate|]. destruct (Inrange d 48 55); [|intros [= <- <-]; lia].
    destruct r; [discriminate|]. destruct (Inrange z 48 55); intros [= <- <-]; lia.
  - destruct (c =? 120); [|intros [= <- <-]; lia]. destruct r as [|d r]; [discriminate|]. destruct (Isxdigit d); [|discriminate].
    destruct (read_hex 0 (d :: r)); try discriminate. cbn [bind]. intros [= <- <-]. lia.
Qed.

(** A UTF-16 encoding has at most as many units as the UTF-8 one has bytes. *)
Lemma utf16_len p c k : decode_utf8 p = Ok (c, k) -> (1 <= k /\ length (utf16_units c) <= k)%nat.
Proof.
  destruct p as [|z b]; [discriminate|]. cbn [decode_utf8]. unfold utf16_units. intros D. destruct (Z.ltb_spec z 128).
  { injection D as <- <-. destruct (Z.ltb_spec z 65536); cbn [length]; lia. }
  match type of D with bind ?lc _ = _ => destruct lc as [[l v]| |] eqn:LC end; cbn [bind] in D; try discriminate.
  destruct (decode_tail _ _ _); cbn [bind] in D; try discriminate. injection D as <- <-. cbn [fst].
  assert (2 <= l)%nat. { destruct (_ <=? z); [injection LC as <- <-; lia|]. destruct (_ <=? z); [injection LC as <- <-; lia|].
    destruct (_ <=? z); [injection LC as <- <-; lia|discriminate]. }
  destruct (_ <? _); cbn [length]; lia.
Qed.

(** Bytes the scan for the closing quote steps over one by one. *)
Definition plain (c : Z) : Prop := c <> 34 /\ c <> 10 /\ c <> 0 /\ c <> 92.
Lemma sle_plain k : forall p n, string_literal_end p = Ok n -> (k <= length p)%nat -> Forall plain (firstn k p) ->
  (k <= n)%nat /\ string_literal_end (skipn k p) = Ok (n - k)%nat.
Proof.
  induction k as [|k IH]; intros p n H L F; [split; [lia|]; cbn [skipn]; rewrite Nat.sub_0_r; exact H|].
  destruct p as [|c p]; [cbn [length] in L; lia|]. cbn [firstn] in F. inversion F as [|? ? [P1 [P2 [P3 P4]]] F']; subst.
  apply Z.eqb_neq in P1, P2, P3, P4. cbn [string_literal_end] in H. rewrite P1, P2, P3, P4 in H. cbn [orb] in H.
  destruct (string_literal_end p) as [m| |] eqn:E; cbn [bind] in H; try discriminate. injection H as <-. cbn [length] in L.
  destruct (IH p m E ltac:(lia) F') as [I1 I2]. split; [lia|]. cbn [skipn]. exact I2.
Qed.

Lemma tail_plain m : forall c p v, decode_tail m c p = Ok v -> (m <= length p)%nat /\ Forall plain (firstn m p).
Proof.
  induction m as [|m IH]; intros c p v H; [split; [lia|constructor]|]. cbn [decode_tail] in H. destruct p as [|b p]; [discriminate|].
  destruct (Z.eqb_spec (Z.shiftr b 6) (MASK2 1 1)) as [E|]; [|discriminate]. destruct (IH _ _ _ H) as [I1 I2]. cbn [length firstn]. split; [lia|].
  constructor; [|exact I2]. repeat split; intros ->; vm_compute in E; discriminate.
Qed.

Lemma decode_plain c p u k : decode_utf8 (c :: p) = Ok (u, k) -> plain c -> (k <= length (c :: p))%nat /\ Forall plain (firstn k (c :: p)).
Proof.
  cbn [decode_utf8]. intros H C. destruct (c <? 128). { injection H as <- <-. cbn [length firstn]. split; [lia|constructor; [exact C|constructor]]. }
  match type of H with bind ?lc _ = _ => destruct lc as [[l v]| |] eqn:LC end; cbn [bind] in H; try discriminate.
  assert (l >= 1)%nat. { destruct (_ <=? c); [injection LC as <- <-; lia|]. destruct (_ <=? c); [injection LC as <- <-; lia|].
    destruct (_ <=? c); [injection LC as <- <-; lia|discriminate]. }
  cbn [fst snd] in H. destruct (decode_tail (l - 1) v p) as [w| |] eqn:D; cbn [bind] in H; try discriminate. injection H as <- <-.
  destruct (tail_plain _ _ _ _ D) as [T1 T2]. destruct l as [|l]; [lia|]. cbn [length firstn]. replace (S l - 1)%nat with l in * by lia.
  split; [lia|]. constructor; assumption.
Qed.

Lemma xdigit_plain c : Isxdigit c = true -> plain c.
Proof. intros H. repeat split; intros ->; discriminate H. Qed.
Lemma octal_plain c : Inrange c 48 55 = true -> plain c.
Proof. intros H. repeat split; intros ->; discriminate H. Qed.
Lemma hex_plain p : forall c x k, read_hex c p = Ok (x, k) -> (k <= length p)%nat /\ Forall plain (firstn k p).
Proof.
  induction p as [|d p IH]; intros c x k; cbn [read_hex]; [discriminate|]. destruct (Isxdigit d) eqn:D.
  - destruct (read_hex _ p) as [[y m]| |] eqn:E; cbn [bind fst snd]; try discriminate. intros [= <- <-].
    destruct (IH _ _ _ E) as [I1 I2]. cbn [length firstn]. split; [lia|]. constructor; [apply xdigit_plain; exact D|exact I2].
  - intros [= <- <-]. split; [lia|constructor].
Qed.
(** After its first byte an escape consists of digits only. *)
Lemma escape_plain c p x k : read_escaped_char (c :: p) = Ok (x, k) ->
  exists m, k = S m /\ (m <= length p)%nat /\ Forall plain (firstn m p).
Proof.
  unfold read_escaped_char. destruct (Inrange c 48 55).
  - destruct p as [|d p]; [discriminate|]. destruct (Inrange d 48 55) eqn:D.
    + destruct p as [|e p]; [discriminate|]. destruct (Inrange e 48 55) eqn:E; intros [= <- <-].
      * exists 2%nat. cbn [length firstn]. split; [reflexivity|]. split; [lia|]. repeat constructor; apply octal_plain; assumption.
      * exists 1%nat. cbn [length firstn]. split; [reflexivity|]. split; [lia|]. repeat constructor; apply octal_plain; assumption.
    + intros [= <- <-]. exists 0%nat. split; [reflexivity|]. split; [lia|constructor].
  - destruct (c =? 120).
    + destruct p as [|d p]; [discriminate|]. destruct (Isxdigit d); [|discriminate].
      destruct (read_hex 0 (d :: p)) as [[y m]| |] eqn:E; cbn [bind fst snd]; try discriminate. intros [= <- <-].
      exists m. destruct (hex_plain _ _ _ _ E). auto.
    + intros [= <- <-]. exists 0%nat. split; [reflexivity|]. split; [lia|constructor].
Qed.

(** One item of a string literal ends at or before the closing quote. *)
Lemma item_inside e c r n u k : string_literal_end (c :: r) = Ok (S n) ->
  (if c =? 92 then do q <- read_escaped_char r; Ok ([fst q mod 2 ^ enc_bits e], S (snd q)) else str_units e (c :: r)) = Ok (u, k) ->
  (1 <= k <= S n)%nat /\ (length u <= k)%nat /\ string_literal_end (skipn k (c :: r)) = Ok (S n - k)%nat.
Proof.
  intros H I. destruct (Z.eqb_spec c 92) as [->|N92].
  - destruct r as [|d r]; [discriminate|].
    destruct (read_escaped_char (d :: r)) as [[x m]| |] eqn:E; cbn [bind fst snd] in I; try discriminate. injection I as <- <-.
    destruct (escape_plain _ _ _ _ E) as [j [-> [J1 J2]]]. change (string_literal_end (92 :: d :: r)) with (do n <- string_literal_end r; Ok (S (S n))) in H.
    destruct (string_literal_end r) as [z| |] eqn:Q; cbn [bind] in H; try discriminate. injection H as <-.
    destruct (sle_plain j r z Q J1 J2) as [K1 K2]. cbn [length skipn]. split; [lia|]. split; [lia|]. rewrite K2. f_equal. 
  - assert (PC : plain c).
    { cbn [string_literal_end] in H. destruct (Z.eqb_spec c 34); [discriminate|]. destruct (Z.eqb_spec c 10); [discriminate|].
      destruct (Z.eqb_spec c 0); [discriminate|]. repeat split; assumption. }
    assert (K : (1 <= k /\ length u <= k)%nat /\ (k <= length (c :: r))%nat /\ Forall plain (firstn k (c :: r))).
    { destruct e; cbn [str_units] in I.
      - injection I as <- <-. cbn [length firstn]. split; [lia|]. split; [lia|]. constructor; [exact PC|constructor].
      - destruct (decode_utf8 (c :: r)) as [[v j]| |] eqn:D; cbn [bind fst snd] in I; try discriminate. injection I as <- <-.
        split; [|exact (decode_plain _ _ _ _ D PC)]. exact (utf16_len _ _ _ D).
      - destruct (decode_utf8 (c :: r)) as [[v j]| |] eqn:D; cbn [bind fst snd] in I; try discriminate. injection I as <- <-.
        split; [|exact (decode_plain _ _ _ _ D PC)]. pose proof (utf16_len _ _ _ D). cbn [length]. lia. }
    destruct K as [[K1 K2] [K3 K4]]. destruct (sle_plain k _ _ H K3 K4) as [L1 L2]. auto.
Qed.

Lemma str_item_safe e b : b <> [] -> ~ In 0 b -> forall c r, b ++ [0] = c :: r ->
  (if c =? 92 then do q <- read_escaped_char r; Ok ([fst q mod 2 ^ enc_bits e], S (snd q)) else str_units e (c :: r)) <> UB.
Proof.
  intros H N c r E. destruct b as [|c' b]; [congruence|]. injection E as -> <-. destruct (c =? 92).
  - destruct (escape_ok b) as [E1 _]. destruct (read_escaped_char (b ++ [0])); cbn [bind]; congruence.
  - destruct e; cbn [str_units]; [discriminate| |]; change (c :: b ++ [0]) with ((c :: b) ++ [0]);
      destruct (decode_ok (c :: b) H) as [D1 _]; destruct (decode_utf8 ((c :: b) ++ [0])); cbn [bind]; congruence.
Qed.

Lemma sle_len p n : string_literal_end p = Ok n -> (n < length p)%nat.
Proof.
  remember (length p) as k eqn:K. revert p n K. induction k as [k IH] using lt_wf_ind. intros p n -> H.
  destruct p as [|c p]; [discriminate|]. cbn [string_literal_end] in H. cbn [length] in *.
  destruct (c =? 34); [injection H as <-; lia|]. destruct (_ || _); [discriminate|]. destruct (c =? 92).
  - destruct p as [|d p]; [discriminate|]. destruct (string_literal_end p) eqn:E; cbn [bind] in H; try discriminate. injection H as <-.
    cbn [length] in *. specialize (IH (length p) ltac:(lia) p a eq_refl E). lia.
  - destruct (string_literal_end p) eqn:E; cbn [bind] in H; try discriminate. injection H as <-. specialize (IH (length p) ltac:(lia) p a eq_refl E). lia.
Qed.

Lemma read_units_safe e f : forall n room b, ~ In 0 b -> string_literal_end (b ++ [0]) = Ok n -> (n < f)%nat -> (n <= room)%nat ->
  read_units e f n room (b ++ [0]) <> UB.
Proof.
  induction f as [|f IH]; intros n room b N0 HS L1 L3; [lia|]. destruct n as [|n]; [discriminate|].
  destruct b as [|c b]; [discriminate|]. pose proof (sle_len _ _ HS) as LL. rewrite app_length in LL. cbn [length] in LL.
  pose proof (str_item_safe e (c :: b) ltac:(discriminate) N0 c (b ++ [0]) eq_refl) as SAFE.
  cbn [app] in HS. pose proof (item_inside e c (b ++ [0]) n) as IN. cbn [app read_units].
  destruct (if c =? 92 then _ else _) as [[u k]| |]; cbn [bind fst snd]; [|congruence|discriminate].
  destruct (IN u k HS eq_refl) as [K1 [K2 K3]]. clear IN. destruct (Nat.leb_spec (length u) room); [|lia].
  change (c :: b ++ [0]) with ((c :: b) ++ [0]) in *. rewrite skipn_term in K3 |- * by (cbn [length]; lia).
  specialize (IH (S n - k)%nat (room - length u)%nat (skipn k (c :: b)) (no0_skipn _ _ N0) K3 ltac:(lia) ltac:(lia)).
  destruct (read_units e f _ _ _); cbn [bind]; congruence.
Qed.

Lemma string_literal_ok e q b : ~ In 0 b -> nl_end b -> (S q <= length b)%nat ->
  within2 (read_string_literal e q (b ++ [0])) (length b) /\
  forall x n, read_string_literal e q (b ++ [0]) = Ok (x, n) -> (2 <= n)%nat.
Proof.
  intros N E L. unfold read_string_literal. rewrite skipn_term by exact L.
  destruct (string_end_ok _ (no0_skipn (S q) _ N) (nl_skipn (S q) _ E)) as [Q1 Q2].
  destruct (string_literal_end (skipn (S q) b ++ [0])) as [n| |] eqn:HS; cbn [bind]; [|congruence|split; [split|]; discriminate].
  specialize (Q2 n eq_refl). rewrite skipn_length in Q2.
  pose proof (read_units_safe e (S n) n (match e with E16 => (n + q)%nat | _ => n end) _ (no0_skipn (S q) _ N) HS ltac:(lia) ltac:(destruct e; lia)) as RU.
  destruct (read_units _ _ _ _ _) as [l| |]; cbn [bind]; [|congruence|split; [split|]; discriminate].
  split; [apply within2_ok; lia|]. intros x m [= <- <-]. lia.
Qed.

Lemma find_quote_ok b : ~ In 0 b -> find_quote (b ++ [0]) <> UB /\ forall n, find_quote (b ++ [0]) = Ok n -> (n + 1 <= length b)%nat.
Proof.
  induction b as [|c b IH]; intros N; [split; discriminate|]. cbn [app find_quote length].
  destruct (c =? 39); [split; [discriminate|intros n [= <-]; lia]|].
  destruct (c =? 0); [split; discriminate|]. destruct (IH (fun X => N (or_intror X))) as [I1 I2].
  destruct (find_quote (b ++ [0])); cbn [bind]; split; try discriminate; try congruence. intros n [= <-]. specialize (I2 a eq_refl). lia.
Qed.

Lemma char_literal_ok q b : ~ In 0 b -> nl_end b -> (S q <= length b)%nat ->
  within2 (read_char_literal q (b ++ [0])) (length b) /\
  forall x n, read_char_literal q (b ++ [0]) = Ok (x, n) -> (2 <= n)%nat.
Proof.
  intros N E L. unfold read_char_literal. rewrite skipn_term by exact L.
  pose proof (no0_skipn (S q) _ N) as N1. pose proof (nl_skipn (S q) _ E) as E1.
  pose proof (skipn_length (S q) b) as LB. destruct (skipn (S q) b) as [|c r]; cbn [app].
  { cbn. split; [split|]; discriminate. }
  cbn [length] in LB. destruct (c =? 0) eqn:C0; [split; [split|]; discriminate|].
  set (it := if c =? 92 then do x <- read_escaped_char (r ++ [0]); Ok (fst x, S (snd x))
             else do x <- decode_utf8 (c :: r ++ [0]); Ok (sext 32 (fst x), snd x)).
  assert (IT : it <> UB /\ forall x k, it = Ok (x, k) -> (k <= length (c :: r))%nat).
  { subst it. destruct (Z.eqb_spec c 92) as [->|].
    - destruct r as [|d r]; [destruct E1 as [E1|E1]; [discriminate|cbn in E1; discriminate]|].
      destruct (escape_ok (d :: r)) as [X1 X2]. specialize (X2 ltac:(discriminate)).
      destruct (read_escaped_char _) as [[v k]| |]; cbn [bind fst snd]; split; try discriminate; try congruence.
      intros x k' [= <- <-]. specialize (X2 v k eq_refl). cbn [length] in *. lia.
    - change (c :: r ++ [0]) with ((c :: r) ++ [0]). destruct (decode_ok (c :: r) ltac:(discriminate)) as [D1 D2].
      destruct (decode_utf8 _) as [[v k]| |]; cbn [bind fst snd]; split; try discriminate; try congruence.
      intros x k' [= <- <-]. specialize (D2 v k eq_refl). lia. }
  destruct IT as [I1 I2]. destruct it as [[x k]| |]; cbn [bind fst snd]; [|congruence|split; [split|]; discriminate].
  specialize (I2 x k eq_refl). change (c :: r ++ [0]) with ((c :: r) ++ [0]). rewrite skipn_term by exact I2.
  destruct (find_quote_ok _ (no0_skipn k _ N1)) as [F1 F2].
  destruct (find_quote _) as [e| |]; cbn [bind]; [|congruence|split; [split|]; discriminate].
  specialize (F2 e eq_refl). rewrite skipn_length in F2. cbn [length] in F2, I2.
  split; [apply within2_ok; lia|]. intros y m [= <- <-]. lia.
Qed.

(** Bytes consumed by a step. *)
Definition slen (s : step) : nat := match s with Newline => 1 | Space n => n | Tok _ n => n end.

Lemma nth2_len c b x : nth2 (c :: b ++ [0]) = x -> x <> 0 -> x <> -1 -> (2 <= length (c :: b))%nat.
Proof. unfold nth2. destruct b; cbn [app nth length]; [congruence|lia]. Qed.
Lemma nth3_len c b x : nth3 (c :: b ++ [0]) = x -> x <> 0 -> x <> -1 -> (3 <= length (c :: b))%nat.
Proof. unfold nth3. destruct b as [|d [|e b]]; cbn [app nth length]; [congruence|congruence|lia]. Qed.

Lemma last_in (b : list Z) : nl_end b -> b <> [] -> In 10 b.
Proof.
  intros [->|H] N; [congruence|]. induction b as [|a b IH]; [congruence|]. destruct b as [|d b]; [cbn in H; left; exact H|].
  right. apply IH; [exact H|discriminate].
Qed.

Definition step_in (r : outcome step) (L : nat) : Prop := r <> UB /\ forall s, r = Ok s -> (1 <= slen s <= L)%nat.
Lemma step_str {A} (r : outcome (A * nat)) (mk : A -> tkind) L : within2 r L -> (forall x n, r = Ok (x, n) -> (2 <= n)%nat) ->
  step_in (do q <- r; Ok (Tok (mk (fst q)) (snd q))) L.
Proof.
  intros [W1 W2] P. destruct r as [[x n]| |]; cbn [bind fst snd]; split; try discriminate; try congruence.
  intros s [= <-]. cbn [slen]. specialize (W2 x n eq_refl). specialize (P x n eq_refl). lia.
Qed.

(** Every step reads inside the text and consumes at least one byte of it, but never the
    terminator. *)
Theorem lex_step_safe o b : b <> [] -> ~ In 0 b -> nl_end b -> step_in (lex_step o (b ++ [0])) (length b).
Proof.
  intros H N E. destruct b as [|c b]; [congruence|]. cbn [app lex_step].
  assert (Nc : c <> 0) by (intros ->; apply N; left; reflexivity).
  assert (N1 : ~ In 0 b) by (intros X; apply N; right; exact X).
  assert (TWO : forall x, nth2 (c :: b ++ [0]) = x -> x <> 0 -> x <> -1 -> (2 <= length (c :: b))%nat) by (intros x; apply nth2_len).
  change (c :: b ++ [0]) with ((c :: b) ++ [0]) in *.
  assert (W : forall r k, within r (length (c :: b) - k) -> (1 <= k <= length (c :: b))%nat -> forall mk, (forall n, slen (mk n) = n) ->
              step_in (do n <- r; Ok (mk (k + n)%nat)) (length (c :: b))).
  { intros r k [R1 R2] K mk M. destruct r; cbn [bind]; split; try discriminate; try congruence. intros s [= <-]. rewrite M.
    specialize (R2 a eq_refl). lia. }
  destruct (c =? 10); [split; [discriminate|]; intros s [= <-]; cbn [slen length]; lia|].
  destruct (existsb (Z.eqb c) [32; 9; 11; 12]).
  { apply (W (run_of c (b ++ [0])) 1%nat) with (mk := Space); [|cbn [length]; lia|reflexivity]. cbn [length]. replace (S (length b) - 1)%nat with (length b) by lia.
    apply run_of_ok. exact Nc. }
  destruct ((c =? 47) && (nth2 ((c :: b) ++ [0]) =? 47)) eqn:C1.
  { apply andb_true_iff in C1. destruct C1 as [C1 C2]. apply Z.eqb_eq in C1, C2. specialize (TWO _ C2 ltac:(lia) ltac:(lia)).
    apply (W _ 2%nat) with (mk := Space); [|lia|reflexivity]. rewrite skipn_term, <- skipn_length by exact TWO.
    apply to_newline_ok. destruct b as [|d b]; [cbn [length] in TWO; lia|]. cbn [skipn]. assert (d = 47) by (cbn in C2; exact C2). subst d c.
    apply last_in; [exact (nl_skipn 2 _ E)|]. intros ->. destruct E as [E|E]; [discriminate|cbn in E; discriminate]. }
  destruct ((c =? 47) && (nth2 ((c :: b) ++ [0]) =? 42)) eqn:C2.
  { apply andb_true_iff in C2. destruct C2 as [_ C2]. apply Z.eqb_eq in C2. specialize (TWO _ C2 ltac:(lia) ltac:(lia)).
    rewrite skipn_term by exact TWO. destruct (comment_end_ok _ (no0_skipn 2 _ N)) as [Q1 Q2]. rewrite skipn_length in Q2.
    destruct (comment_end _); cbn [bind]; split; try discriminate; try congruence. intros s [= <-]. cbn [slen]. specialize (Q2 a eq_refl). lia. }
  clear C1 C2. destruct (Isdigit (if c =? 46 then nth2 ((c :: b) ++ [0]) else c)) eqn:D.
  { set (k := if c =? 46 then 2%nat else 1%nat).
    assert (K : (1 <= k <= length (c :: b))%nat).
    { subst k. destruct (c =? 46); [|cbn [length]; lia]. split; [lia|]. apply (TWO _ eq_refl); intros X; rewrite X in D; discriminate D. }
    apply (W _ k) with (mk := Tok TK_PP_NUM); [|exact K|reflexivity]. rewrite skipn_term, <- skipn_length by apply K.
    apply pp_number_ok; [apply no0_skipn; exact N|]. rewrite skipn_length, app_length. cbn [length]. lia. }
  pose proof (read_punct_ok o c b Nc) as [P1 P2]. change (c :: b ++ [0]) with ((c :: b) ++ [0]) in *.
  destruct (read_punct o ((c :: b) ++ [0])) as [n| |]; cbn [bind]; [|congruence|split; discriminate].
  destruct (Nat.eqb_spec n 0) as [->|Hn]; cbn [negb].
  2: { split; [discriminate|]. intros s [= <-]. cbn [slen length]. specialize (P2 n eq_refl). lia. }
  assert (SL : forall e q, (S q <= length (c :: b))%nat -> step_in (do q <- read_string_literal e q ((c :: b) ++ [0]); Ok (Tok (TK_STR e (fst q)) (snd q))) (length (c :: b))).
  { intros e q L. destruct (string_literal_ok e q (c :: b) N E L) as [S1 S2]. apply (step_str _ (TK_STR e)); assumption. }
  assert (CL : forall q t g, (S q <= length (c :: b))%nat -> step_in (do q <- read_char_literal q ((c :: b) ++ [0]); Ok (Tok (TK_CHAR t (g (fst q))) (snd q))) (length (c :: b))).
  { intros q t g L. destruct (char_literal_ok q (c :: b) N E L) as [S1 S2]. apply (step_str _ (fun v => TK_CHAR t (g v))); assumption. }
  assert (ONE : (1 <= length (c :: b))%nat) by (cbn [length]; lia).
  destruct (c =? 34); [apply SL; exact ONE|].
  destruct ((c =? 117) && (nth2 ((c :: b) ++ [0]) =? 56) && (nth3 ((c :: b) ++ [0]) =? 34)) eqn:C3.
  { apply andb_true_iff in C3. destruct C3 as [_ C3]. apply Z.eqb_eq in C3. apply SL. apply (nth3_len _ _ _ C3); lia. }
  assert (T2 : forall a x, a && (nth2 ((c :: b) ++ [0]) =? x) = true -> x <> 0 -> x <> -1 -> (2 <= length (c :: b))%nat).
  { intros a x A X0 X1. apply andb_true_iff in A. destruct A as [_ A]. apply Z.eqb_eq in A. exact (TWO _ A X0 X1). }
  destruct ((c =? 117) && (nth2 ((c :: b) ++ [0]) =? 34)) eqn:C4; [apply SL, (T2 _ _ C4); lia|].
  destruct ((c =? 76) && (nth2 ((c :: b) ++ [0]) =? 34)) eqn:C5; [apply SL, (T2 _ _ C5); lia|].
  destruct ((c =? 85) && (nth2 ((c :: b) ++ [0]) =? 34)) eqn:C6; [apply SL, (T2 _ _ C6); lia|].
  destruct (c =? 39); [apply (CL 0%nat ty_int (sext 8)); exact ONE|].
  destruct ((c =? 117) && (nth2 ((c :: b) ++ [0]) =? 39)) eqn:C7; [apply (CL 1%nat ty_ushort (fun v => v mod 65536)), (T2 _ _ C7); lia|].
  destruct ((c =? 76) && (nth2 ((c :: b) ++ [0]) =? 39)) eqn:C8; [apply (CL 1%nat ty_int (fun v => v)), (T2 _ _ C8); lia|].
  destruct ((c =? 85) && (nth2 ((c :: b) ++ [0]) =? 39)) eqn:C9; [apply (CL 1%nat ty_uint (fun v => v)), (T2 _ _ C9); lia|].
  destruct (read_ident_ok o (length ((c :: b) ++ [0])) true (c :: b) N) as [R1 R2]. { rewrite app_length. cbn [length]. lia. }
  destruct (read_ident _ _ _ _) as [m| |]; cbn [bind]; [|congruence|split; discriminate].
  specialize (R2 m eq_refl). destruct (Nat.eqb_spec m 0); [split; discriminate|]. split; [discriminate|]. intros s [= <-]. cbn [slen]. lia.
Qed.

Theorem tokenize2_safe o f : forall b off bol sp, ~ In 0 b -> nl_end b -> (length b < f)%nat -> tokenize2 o f (b ++ [0]) off bol sp <> UB.
Proof.
  induction f as [|f IH]; intros b off bol sp N E L; [lia|]. destruct b as [|c b]; [discriminate|].
  assert (Nc : c <> 0) by (intros ->; apply N; left; reflexivity). apply Z.eqb_neq in Nc.
  pose proof (lex_step_safe o (c :: b) ltac:(discriminate) N E) as [S1 S2]. cbn [app tokenize2]. rewrite Nc.
  change (c :: b ++ [0]) with ((c :: b) ++ [0]) in *.
  destruct (lex_step o ((c :: b) ++ [0])) as [s| |]; cbn [bind]; [|congruence|discriminate].
  specialize (S2 s eq_refl). cbn [length] in L.
  assert (REC : forall off bol sp, tokenize2 o f (skipn (slen s) ((c :: b) ++ [0])) off bol sp <> UB).
  { intros. rewrite skipn_term by lia. apply IH; [apply no0_skipn; exact N|apply nl_skipn; exact E|]. rewrite skipn_length. cbn [length] in *. lia. }
  destruct s; cbn [slen] in *; [apply REC|apply REC|]. specialize (REC (off + n)%nat false false).
  destruct (tokenize2 o f _ _ _ _); cbn [bind]; congruence.
Qed.
