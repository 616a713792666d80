(** C51: strings, character constants, white space; the whole token sequence. *)
From Coq Require Import Ascii String ZArith List Bool Lia.
From Verif Require Import Base IntModel UnicodeTables UnicodeModel UnicodeSpec UnicodeProofs LexSpec LexModel LexLines LexSafe LexProofs.
Import ListNotations.
Local Open Scope Z_scope.

Lemma sext_signed n v : 0 < n -> sext n v = signed_of n v.
Proof.
  intros N. unfold sext, signed_of. assert (P : 2 ^ n = 2 * 2 ^ (n - 1)) by (rewrite <- Z.pow_succ_r by lia; f_equal; lia).
  pose proof (Z.pow_pos_nonneg 2 (n - 1) ltac:(lia) ltac:(lia)) as Q. pose proof (Z.mod_pos_bound v (2 ^ n) ltac:(lia)) as B.
  rewrite <- Zplus_mod_idemp_l. destruct (Z.ltb_spec (v mod 2 ^ n) (2 ^ (n - 1))).
  - rewrite (Z.mod_small (v mod 2 ^ n + _)) by lia. lia.
  - replace (v mod 2 ^ n + 2 ^ (n - 1)) with (v mod 2 ^ n - 2 ^ (n - 1) + 1 * 2 ^ n) by lia.
    rewrite Z.mod_add by lia. rewrite (Z.mod_small (v mod 2 ^ n - _)) by lia. lia.
Qed.
Lemma sext_mod n m v : 0 <= m <= n -> sext n v mod 2 ^ m = v mod 2 ^ m.
Proof.
  intros H. unfold sext. pose proof (Z.pow_pos_nonneg 2 m ltac:(lia) ltac:(lia)). pose proof (Z.pow_pos_nonneg 2 n ltac:(lia) ltac:(lia)).
  assert (E : 2 ^ n = 2 ^ (n - m) * 2 ^ m) by (rewrite <- Z.pow_add_r by lia; f_equal; lia).
  assert (M : v mod 2 ^ n mod 2 ^ m = v mod 2 ^ m).
  { rewrite Z.mod_eq with (b := 2 ^ n) by lia. rewrite E. replace (v - 2 ^ (n - m) * 2 ^ m * (v / (2 ^ (n - m) * 2 ^ m))) with (v + - (2 ^ (n - m) * (v / (2 ^ (n - m) * 2 ^ m))) * 2 ^ m) by ring.
    apply Z.mod_add. lia. }
  destruct (_ <? _); [exact M|]. rewrite <- M. replace (v mod 2 ^ n - 2 ^ n) with (v mod 2 ^ n + - 2 ^ (n - m) * 2 ^ m) by (rewrite E; ring). apply Z.mod_add. lia.
Qed.
Lemma sext_small n v : 0 < n -> 0 <= v < 2 ^ (n - 1) -> sext n v = v.
Proof.
  intros N H. unfold sext. assert (P : 2 ^ n = 2 * 2 ^ (n - 1)) by (rewrite <- Z.pow_succ_r by lia; f_equal; lia).
  rewrite Z.mod_small by lia. destruct (Z.ltb_spec v (2 ^ (n - 1))); lia.
Qed.
Lemma sext_neg n v : 0 < n -> 2 ^ (n - 1) <= v < 2 ^ n -> sext n v = v - 2 ^ n.
Proof.
  intros N H. pose proof (Z.pow_pos_nonneg 2 (n - 1) ltac:(lia) ltac:(lia)). unfold sext. rewrite Z.mod_small by lia.
  destruct (Z.ltb_spec v (2 ^ (n - 1))); lia.
Qed.
Lemma sext_sext n m v : 0 < m <= n -> sext m (sext n v) = sext m v.
Proof. intros H. unfold sext at 1 3. rewrite sext_mod by lia. reflexivity. Qed.
Lemma sext_congr n a b : a mod 2 ^ n = b mod 2 ^ n -> sext n a = sext n b.
Proof. unfold sext. intros ->. reflexivity. Qed.

(** *** Escapes *)
Lemma hex_value p : bytes p -> forall c x k, 0 <= c -> read_hex (c mod two32) p = Ok (x, k) ->
  exists ds r, p = ds ++ r /\ forallb hexdigit ds = true /\ stops hexdigit r /\ k = length ds /\
    x = fold_left (fun v d => v * 16 + hexval d) ds c mod two32.
Proof.
  induction p as [|d p IH]; intros B c x k C; cbn [read_hex]; [discriminate|]. inversion B as [|? ? Bd Bp]; subst.
  destruct (xdigit_spec d Bd) as [X1 X2]. rewrite X1. destruct (hexdigit d) eqn:D.
  - rewrite (X2 eq_refl).
    assert (HV : 0 <= hexval d). { unfold hexval. unfold hexdigit in D. destruct (digit d) eqn:DD; [unfold digit in DD; lia|]. destruct (Z.leb_spec d 70); lia. }
    replace ((c mod two32 * 16 + hexval d) mod two32) with ((c * 16 + hexval d) mod two32).
    2: { rewrite (Zplus_mod (c mod two32 * 16)), Zmult_mod_idemp_l, <- Zplus_mod. reflexivity. }
    destruct (read_hex ((c * 16 + hexval d) mod two32) p) as [[y m]| |] eqn:E; cbn [bind fst snd]; try discriminate. intros [= <- <-].
    destruct (IH Bp (c * 16 + hexval d) y m ltac:(lia) E) as [ds [r [-> [F [S [-> ->]]]]]]. exists (d :: ds), r. cbn [app forallb length fold_left].
    rewrite D, F. auto.
  - intros [= <- <-]. exists [], (d :: p). cbn. rewrite D. auto.
Qed.

Lemma octal_spec c : Inrange c 48 55 = octal c.
Proof. reflexivity. Qed.
Lemma octal_val c : octal c = true -> hexval c = c - 48 /\ 0 <= c - 48 < 8.
Proof. unfold octal, hexval, digit. intros H. destruct (Z.leb_spec 48 c), (Z.leb_spec c 55), (Z.leb_spec c 57); try discriminate; try lia. cbn [andb]. lia. Qed.

Lemma escape_value_spec c : 0 <= c < 256 ->
  (if c =? 97 then 7 else if c =? 98 then 8 else if c =? 116 then 9
   else if c =? 110 then 10 else if c =? 118 then 11 else if c =? 102 then 12
   else if c =? 114 then 13 else if c =? 101 then 27 else sext 8 c) = sext 32 (escape_value c).
Proof.
  intros H.
  assert (K : forallb (fun k => let c := Z.of_nat k in
     (if c =? 97 then 7 else if c =? 98 then 8 else if c =? 116 then 9
   else if c =? 110 then 10 else if c =? 118 then 11 else if c =? 102 then 12
   else if c =? 114 then 13 else if c =? 101 then 27 else sext 8 c) =? sext 32 (escape_value c)) (seq 0 256) = true) by (vm_compute; reflexivity).
  rewrite forallb_forall in K. specialize (K (Z.to_nat c)). cbv beta zeta in K. rewrite Z2Nat.id in K by lia.
  apply Z.eqb_eq, K, in_seq. lia.
Qed.

Theorem escape_spec p x k : bytes p -> read_escaped_char p = Ok (x, k) ->
  (k <= length p)%nat /\ exists v, escape p v (skipn k p) /\ x = sext 32 v.
Proof.
  intros B H. destruct p as [|c r]; [discriminate|]. inversion B as [|? ? Bc Br]; subst. cbn [read_escaped_char] in H.
  rewrite !octal_spec in H. destruct (octal c) eqn:Oc.
  - destruct (octal_val c Oc) as [V1 V2]. destruct r as [|d r]; [discriminate|]. rewrite octal_spec in H. destruct (octal d) eqn:Od.
    + destruct (octal_val d Od) as [W1 W2]. destruct r as [|e r]; [discriminate|]. rewrite octal_spec in H. destruct (octal e) eqn:Oe.
      * destruct (octal_val e Oe) as [U1 U2]. injection H as <- <-. cbn [length skipn]. split; [lia|]. exists (value_of 8 [c; d; e]). split.
        -- apply (esc_octal [c; d; e] r); [cbn; rewrite Oc, Od, Oe; reflexivity|cbn [length]; lia|left; reflexivity].
        -- unfold value_of. cbn [fold_left]. rewrite V1, W1, U1. symmetry. apply sext_small; lia.
      * injection H as <- <-. cbn [length skipn]. split; [lia|]. exists (value_of 8 [c; d]). split.
        -- apply (esc_octal [c; d] (e :: r)); [cbn; rewrite Oc, Od; reflexivity|cbn [length]; lia|right; exact Oe].
        -- unfold value_of. cbn [fold_left]. rewrite V1, W1. symmetry. apply sext_small; lia.
    + injection H as <- <-. cbn [length skipn]. split; [lia|]. exists (value_of 8 [c]). split.
      * apply (esc_octal [c] (d :: r)); [cbn; rewrite Oc; reflexivity|cbn [length]; lia|right; exact Od].
      * unfold value_of. cbn [fold_left]. rewrite V1. symmetry. apply sext_small; lia.
  - destruct (Z.eqb_spec c 120) as [->|N].
    + destruct r as [|d r]; [discriminate|]. destruct (Isxdigit d) eqn:X; [|discriminate].
      destruct (read_hex 0 (d :: r)) as [[y m]| |] eqn:E; cbn [bind fst snd] in H; try discriminate. injection H as <- <-.
      destruct (hex_value (d :: r) Br 0 y m ltac:(lia) E) as [ds [r' [P [F [S [-> ->]]]]]]. rewrite P. cbn [length skipn].
      split; [rewrite app_length; lia|]. exists (value_of 16 ds). rewrite skipn_app, skipn_all, Nat.sub_diag. cbn [app skipn]. split.
      * apply esc_hex; [exact F| |exact S]. intros ->. cbn in P. subst r'. cbn [stops] in S. inversion Br; subst. destruct (xdigit_spec d ltac:(assumption)) as [Q _]. congruence.
      * apply sext_congr. change (2 ^ 32) with two32. apply Z.mod_mod. discriminate.
    + injection H as <- <-. cbn [length skipn]. split; [lia|]. exists (escape_value c). split; [apply esc_simple; assumption|]. apply escape_value_spec. exact Bc.
Qed.

(** An escape inside a literal does not depend on what follows the closing quote. *)
Lemma escape_local q v r0 t : escape (q ++ 34 :: t) v (r0 ++ 34 :: t) -> (length r0 < length q)%nat -> escape q v r0.
Proof.
  intros H L. inversion H as [ds r F N S E|ds r F N S E|c r O N E]; subst.
  - assert (q = ds ++ r0). { rewrite app_assoc in E. apply app_inv_tail in E. auto. } subst q.
    constructor; auto. destruct S as [S|S]; [left; exact S|right]. destruct r0; [exact Logic.I|exact S].
  - assert (q = 120 :: ds ++ r0). { change (120 :: ds ++ r0 ++ 34 :: t) with ((120 :: ds) ++ r0 ++ 34 :: t) in E. rewrite app_assoc in E. apply app_inv_tail in E. auto. } subst q.
    constructor; auto. destruct r0; [exact Logic.I|exact S].
  - assert (q = c :: r0). { change (c :: r0 ++ 34 :: t) with ((c :: r0) ++ 34 :: t) in E. apply app_inv_tail in E. auto. } subst q. constructor; auto.
Qed.

Lemma sle_quote p n : string_literal_end p = Ok n -> p = firstn n p ++ 34 :: skipn (S n) p.
Proof.
  remember (length p) as k eqn:K. revert p n K. induction k as [k IH] using lt_wf_ind. intros p n -> H.
  destruct p as [|c p]; [discriminate|]. cbn [string_literal_end] in H. cbn [length] in *.
  destruct (Z.eqb_spec c 34) as [->|]; [injection H as <-; reflexivity|]. destruct (_ || _); [discriminate|]. destruct (c =? 92).
  - destruct p as [|d p]; [discriminate|]. destruct (string_literal_end p) eqn:E; cbn [bind] in H; try discriminate. injection H as <-.
    cbn [length] in *. specialize (IH (length p) ltac:(lia) p a eq_refl E). cbn [firstn skipn app]. do 2 f_equal. exact IH.
  - destruct (string_literal_end p) eqn:E; cbn [bind] in H; try discriminate. injection H as <-.
    specialize (IH (length p) ltac:(lia) p a eq_refl E). cbn [firstn app]. f_equal. exact IH.
Qed.

Lemma skipn_skipn {A} n m (l : list A) : skipn n (skipn m l) = skipn (n + m) l.
Proof. revert l. induction m as [|m IH]; intros l; [rewrite Nat.add_0_r; reflexivity|]. rewrite Nat.add_succ_r. destruct l; [destruct n; reflexivity|]. apply IH. Qed.

Definition spec_enc (e : enc) : strenc := match e with E8 => S8 | E16 => S16 | E32 => S32 end.
Lemma src_range ch u : src_char ch u -> Forall (fun c => 0 <= c) ch -> 0 <= u < 2097152.
Proof.
  intros [c C|? ? W] F; [inversion F; lia|]. destruct W as [a b A B|a b c A B C|a b c d A B C D]; unfold cont in *; try lia; pose proof (Z.mod_pos_bound (a - 240) 8); lia.
Qed.

Lemma units_plain e c r us k : bytes (c :: r) -> str_units e (c :: r) = Ok (us, k) ->
  exists ch r', r = ch ++ r' /\ k = S (length ch) /\ plain_units (spec_enc e) (c :: ch) us.
Proof.
  intros B H. destruct e; cbn [str_units] in H.
  - injection H as <- <-. exists [], r. split; [reflexivity|]. split; [reflexivity|]. exists c. auto.
  - destruct (decode_utf8 (c :: r)) as [[u n]| |] eqn:D; cbn [bind fst snd] in H; try discriminate. injection H as <- <-.
    destruct (decode_src c r u n D) as [ch [r' [-> [S ->]]]]. exists ch, r'. split; [reflexivity|]. split; [reflexivity|]. exists u. split; [exact S|].
    assert (R : 0 <= u < 2097152). { apply (src_range _ _ S). change (c :: ch ++ r') with ((c :: ch) ++ r') in B. apply Forall_app in B. eapply Forall_impl; [|apply B]. cbv beta. lia. }
    unfold utf16_units. destruct (Z.ltb_spec u 65536); [rewrite Z.mod_small by lia; reflexivity|].
    assert (T : (u - 65536) mod two32 = u - 65536) by (apply Z.mod_small; unfold two32; lia). cbv zeta. rewrite T, !land1023, shr10.
    pose proof (Z.mod_pos_bound ((u - 65536) / 1024) 1024). pose proof (Z.mod_pos_bound (u - 65536) 1024). rewrite !Z.mod_small with (b := 65536) by lia. reflexivity.
  - destruct (decode_utf8 (c :: r)) as [[u n]| |] eqn:D; cbn [bind fst snd] in H; try discriminate. injection H as <- <-.
    destruct (decode_src c r u n D) as [ch [r' [-> [S ->]]]]. exists ch, r'. split; [reflexivity|]. split; [reflexivity|]. exists u. auto.
Qed.

Lemma read_units_elements e f : forall n room p us, bytes p -> string_literal_end p = Ok n -> read_units e f n room p = Ok us ->
  elements (spec_enc e) (firstn n p) us.
Proof.
  induction f as [|f IH]; intros n room p us B HS H; [discriminate|]. destruct n as [|n]; [injection H as <-; constructor|].
  destruct p as [|c r]; [discriminate|]. inversion B as [|? ? Bc Br]; subst.
  pose proof (item_inside e c r n) as IN. cbn [read_units] in H.
  destruct (if c =? 92 then _ else _) as [[u k]| |] eqn:IT; cbn [bind fst snd] in H; try discriminate.
  destruct (IN u k HS eq_refl) as [K1 [K2 K3]]. clear IN. destruct (length u <=? room)%nat; [|discriminate].
  destruct (read_units e f _ _ _) as [l| |] eqn:R; cbn [bind] in H; try discriminate. injection H as <-.
  specialize (IH _ _ _ _ (bytes_skipn k _ B) K3 R).
  destruct (Z.eqb_spec c 92) as [->|N92].
  - destruct (read_escaped_char r) as [[x m]| |] eqn:E; cbn [bind fst snd] in IT; try discriminate. injection IT as <- <-.
    destruct (escape_spec r x m Br E) as [L [v [V ->]]]. cbn [skipn] in *.
    rewrite sext_mod by (destruct e; cbn; lia). cbn [firstn app]. replace (enc_bits e) with (strbits (spec_enc e)) by (destruct e; reflexivity).
    apply el_escape with (firstn (S n - S m) (skipn m r)); [|exact IH].
    assert (Q : r = firstn n r ++ 34 :: skipn (S n) r) by (pose proof (sle_quote _ _ HS) as Q; injection Q as Q; exact Q). pose proof (sle_quote _ _ K3) as Q3.
    rewrite skipn_skipn in Q3. replace (S (S n - S m) + m)%nat with (S n) in Q3 by lia.
    apply escape_local with (skipn (S n) r); [rewrite <- Q, <- Q3; exact V|].
    pose proof (sle_len _ _ HS) as L1. cbn [length] in L1. rewrite !firstn_length, skipn_length. pose proof (escape_pos _ _ _ E). lia.
  - destruct (units_plain e c r u k B IT) as [ch [r' [-> [-> P]]]]. cbn [skipn] in *. rewrite skipn_app, skipn_all, Nat.sub_diag in *. cbn [app skipn] in *.
    replace (firstn (S n) (c :: ch ++ r')) with (c :: ch ++ firstn (S n - S (length ch)) r').
    2: { cbn [firstn]. f_equal. rewrite firstn_app. rewrite (firstn_all2 ch) by lia. reflexivity. }
    assert (c <> 34 /\ c <> 10) as [N34 N10].
    { cbn [string_literal_end] in HS. destruct (Z.eqb_spec c 34); [discriminate|]. destruct (Z.eqb_spec c 10); [discriminate|]. auto. }
    apply el_plain; auto.
Qed.

Lemma string_lexes asm e q p us n : bytes p -> strprefix (firstn q p) (spec_enc e) -> nth q p 0 = 34 -> (q < length p)%nat ->
  read_string_literal e q p = Ok (us, n) -> lexes asm p (LString (spec_enc e) us) n.
Proof.
  intros B P N L H. unfold read_string_literal in H. destruct (string_literal_end (skipn (S q) p)) as [m| |] eqn:E; cbn [bind] in H; try discriminate.
  destruct (read_units _ _ _ _ _) as [l| |] eqn:R; cbn [bind] in H; try discriminate. injection H as <- <-.
  pose proof (read_units_elements _ _ _ _ _ _ (bytes_skipn _ _ B) E R) as EL. pose proof (sle_quote _ _ E) as Q. pose proof (sle_len _ _ E) as LL.
  assert (SP : p = firstn q p ++ 34 :: skipn (S q) p).
  { rewrite <- (firstn_skipn q p) at 1. f_equal. clear - N L. revert q N L. induction p as [|a p IH]; intros q N L; [cbn [length] in L; lia|].
    destruct q; [cbn in *; congruence|]. cbn [nth skipn length] in *. apply IH; [exact N|lia]. }
  pose proof (lex_string asm _ _ _ _ (skipn (S m) (skipn (S q) p)) P EL) as X. rewrite <- Q, <- SP in X.
  rewrite !firstn_length, Nat.min_l in X by lia. rewrite Nat.min_l in X by lia. exact X.
Qed.

Lemma find_quote_spec p e : find_quote p = Ok e -> ~ In 39 (firstn e p) /\ p = firstn e p ++ 39 :: skipn (S e) p.
Proof.
  revert e. induction p as [|c p IH]; intros e; cbn [find_quote]; [discriminate|]. destruct (Z.eqb_spec c 39) as [->|N].
  - intros [= <-]. split; [intros []|reflexivity].
  - destruct (c =? 0); [discriminate|]. destruct (find_quote p) as [m| |] eqn:E; cbn [bind]; try discriminate. intros [= <-].
    destruct (IH m eq_refl) as [I1 I2]. cbn [firstn app]. split; [intros [X|X]; [congruence|exact (I1 X)]|]. f_equal. exact I2.
Qed.

Lemma char_lexes asm q p x n t g : bytes p -> charprefix (firstn q p) t g -> nth q p 0 = 39 -> (q < length p)%nat ->
  read_char_literal q p = Ok (x, n) -> exists v, lexes asm p (LChar t (g v)) n /\ x = sext 32 v.
Proof.
  intros B P N L H. unfold read_char_literal in H. pose proof (bytes_skipn (S q) p B) as Bs.
  assert (SP : p = firstn q p ++ 39 :: skipn (S q) p).
  { rewrite <- (firstn_skipn q p) at 1. f_equal. clear - N L. revert q N L. induction p as [|a p IH]; intros q N L; [cbn [length] in L; lia|].
    destruct q; [cbn in *; congruence|]. cbn [nth skipn length] in *. apply IH; [exact N|lia]. }
  destruct (skipn (S q) p) as [|c r] eqn:SK; [discriminate|]. destruct (Z.eqb_spec c 0); [discriminate|].
  inversion Bs as [|? ? Bc Br]; subst.
  match type of H with bind ?it _ = _ => destruct it as [[y k]| |] eqn:IT end; cbn [bind fst snd] in H; try discriminate.
  destruct (find_quote (skipn k (c :: r))) as [m| |] eqn:FQ; cbn [bind] in H; try discriminate. injection H as <- <-.
  destruct (find_quote_spec _ _ FQ) as [F1 F2].
  assert (CH : exists v, char_at (c :: r) v (skipn k (c :: r)) /\ y = sext 32 v /\ (1 <= k <= length (c :: r))%nat).
  { destruct (Z.eqb_spec c 92) as [->|N92].
    - destruct (read_escaped_char r) as [[z j]| |] eqn:E; cbn [bind fst snd] in IT; try discriminate. injection IT as <- <-.
      destruct (escape_spec r z j Br E) as [L1 [v [V ->]]]. exists v. split; [constructor; exact V|]. split; [reflexivity|]. cbn [length]. lia.
    - destruct (decode_utf8 (c :: r)) as [[z j]| |] eqn:D; cbn [bind fst snd] in IT; try discriminate. injection IT as <- <-.
      destruct (decode_src c r z j D) as [ch [r' [-> [S ->]]]]. exists z. cbn [skipn]. rewrite skipn_app, skipn_all, Nat.sub_diag. cbn [app skipn].
      split; [constructor; assumption|]. split; [reflexivity|]. cbn [length]. rewrite app_length. lia. }
  destruct CH as [v [CH [-> K]]]. exists v. split; [|reflexivity].
  assert (FI : c :: r = firstn k (c :: r) ++ firstn m (skipn k (c :: r)) ++ 39 :: skipn (S m) (skipn k (c :: r))).
  { rewrite <- F2. symmetry. apply firstn_skipn. }
  rewrite F2 in CH. rewrite FI in CH at 1.
  assert (HD : hd 0 (firstn k (c :: r)) <> 0) by (destruct k; [lia|exact n0]).
  pose proof (lex_char asm _ _ _ _ _ _ _ P HD CH F1) as X. rewrite <- FI, <- SP in X. rewrite !firstn_length in X.
  assert (LM : (m <= length (skipn k (c :: r)))%nat). { apply (f_equal (@length Z)) in F2. rewrite app_length, firstn_length in F2. cbn [length] in F2. lia. }
  rewrite (Nat.min_l q) in X by lia. rewrite (Nat.min_l k) in X by lia. rewrite Nat.min_l in X by exact LM. exact X.
Qed.

(** *** Steps *)
Definition view_kind (k : tkind) : lexeme :=
  match k with
  | TK_IDENT => LName | TK_PUNCT => LPunct | TK_PP_NUM => LNumber | TK_EOF => LEnd
  | TK_STR e us => LString (spec_enc e) us
  | TK_CHAR t v => LChar (if uns t then if sz t =? 2 then CU16 else CU32 else CInt) v
  end.
Definition view (t : token) : tok := (view_kind (kind t), loc t, tlen t, at_bol t, has_space t).

(** What a step skips or takes. *)
Definition space_ok (n : nat) (p : list Z) : Prop :=
  (forall x, In x (firstn n p) -> is_blank x = true) \/
  (exists t r, firstn n p = 47 :: 47 :: t /\ ~ In 10 t /\ skipn n p = 10 :: r) \/
  (exists t, firstn n p = 47 :: 42 :: t ++ [42; 47] /\ forall u v, t <> u ++ 42 :: 47 :: v).
Definition step_ok (asm : bool) (p : list Z) (s : step) : Prop :=
  match s with
  | Newline => exists r, p = 10 :: r
  | Space n => (0 < n <= length p)%nat /\ space_ok n p
  | Tok k n => (0 < n)%nat /\ lexes asm p (view_kind k) n
  end.

Lemma run_of_spec c p n : run_of c p = Ok n -> (n <= length p)%nat /\ forall x, In x (firstn n p) -> x = c.
Proof.
  revert n. induction p as [|d p IH]; intros n; cbn [run_of]; [discriminate|]. destruct (Z.eqb_spec d c) as [->|].
  - destruct (run_of c p) as [m| |]; cbn [bind]; try discriminate. intros [= <-]. destruct (IH m eq_refl) as [I1 I2]. cbn [length firstn].
    split; [lia|]. intros x [<-|X]; auto.
  - intros [= <-]. split; [lia|]. intros x [].
Qed.
Lemma to_newline_spec p n : to_newline p = Ok n -> (n <= length p)%nat /\ ~ In 10 (firstn n p) /\ exists r, skipn n p = 10 :: r.
Proof.
  revert n. induction p as [|d p IH]; intros n; cbn [to_newline]; [discriminate|]. destruct (Z.eqb_spec d 10) as [->|].
  - intros [= <-]. split; [lia|]. split; [intros []|]. eexists. reflexivity.
  - destruct (to_newline p) as [m| |]; cbn [bind]; try discriminate. intros [= <-]. destruct (IH m eq_refl) as [I1 [I2 I3]].
    cbn [length firstn skipn]. split; [lia|]. split; [intros [X|X]; auto|exact I3].
Qed.
Lemma comment_end_spec p n : comment_end p = Ok n ->
  (n + 2 <= length p)%nat /\ firstn (n + 2) p = firstn n p ++ [42; 47] /\ forall u v, firstn n p <> u ++ 42 :: 47 :: v.
Proof.
  revert n. induction p as [|c p IH]; intros n; cbn [comment_end]; [discriminate|]. destruct (c =? 0); [discriminate|].
  assert (REC : (forall r, c = 42 -> p <> 47 :: r) -> (do m <- comment_end p; Ok (S m)) = Ok n ->
     (n + 2 <= length (c :: p))%nat /\ firstn (n + 2) (c :: p) = firstn n (c :: p) ++ [42; 47] /\ forall u v, firstn n (c :: p) <> u ++ 42 :: 47 :: v).
  { intros NC. destruct (comment_end p) as [m| |]; cbn [bind]; try discriminate. intros [= <-]. destruct (IH m eq_refl) as [I1 [I2 I3]].
    cbn [length Nat.add firstn]. split; [lia|]. split; [cbn [app]; f_equal; exact I2|]. intros u v E. destruct u as [|x u].
    - injection E as -> E. destruct m; [discriminate|]. destruct p as [|d p]; [discriminate|]. injection E as -> _. exact (NC p eq_refl eq_refl).
    - injection E as _ E. exact (I3 u v E). }
  destruct (Z.eqb_spec c 42) as [->|].
  - destruct p as [|d p]; [discriminate|]. cbn [bind]. destruct (Z.eqb_spec d 47) as [->|].
    + intros [= <-]. cbn [length]. split; [lia|]. split; [reflexivity|]. intros [|? ?] v; discriminate.
    + apply REC. intros r _ [= X _]. congruence.
  - cbn [bind]. apply REC. intros r X. congruence.
Qed.

Lemma digit_spec c : Isdigit c = digit c.
Proof. reflexivity. Qed.
Lemma nth2_cons c p x : nth2 (c :: p) = x -> 0 < x -> exists r, p = x :: r.
Proof. unfold nth2. destruct p as [|d p]; cbn [nth]; intros <- H; [lia|eauto]. Qed.
Lemma nth3_cons c d p x : nth3 (c :: d :: p) = x -> 0 < x -> exists r, p = x :: r.
Proof. unfold nth3. destruct p as [|e p]; cbn [nth]; intros <- H; [lia|eauto]. Qed.

Theorem lex_step_ok o p s : bytes p -> (2 <= length p)%nat -> lex_step o p = Ok s -> step_ok (asm_pp o) p s.
Proof.
  intros B L H. destruct p as [|c r]; [discriminate|]. cbn [lex_step] in H. pose proof B as B0. inversion B0 as [|? ? Bc Br]; subst. clear B0.
  destruct (Z.eqb_spec c 10) as [->|N10]; [injection H as <-; exists r; reflexivity|].
  destruct (existsb (Z.eqb c) [32; 9; 11; 12]) eqn:BL.
  { destruct (run_of c r) as [n| |] eqn:E; cbn [bind] in H; try discriminate. injection H as <-. destruct (run_of_spec _ _ _ E) as [R1 R2].
    cbn [step_ok length]. split; [lia|]. left. cbn [firstn]. intros x [<-|X]; [exact BL|]. rewrite (R2 x X). exact BL. }
  destruct ((c =? 47) && (nth2 (c :: r) =? 47)) eqn:C1.
  { apply andb_true_iff in C1. destruct C1 as [C1 C2]. apply Z.eqb_eq in C1, C2. subst c. destruct (nth2_cons _ _ _ C2 ltac:(lia)) as [r' ->]. cbn [skipn] in H.
    destruct (to_newline r') as [n| |] eqn:E; cbn [bind] in H; try discriminate. injection H as <-. destruct (to_newline_spec _ _ E) as [R1 [R2 [z R3]]].
    cbn [step_ok length]. split; [lia|]. right. left. exists (firstn n r'), z. auto. }
  destruct ((c =? 47) && (nth2 (c :: r) =? 42)) eqn:C2.
  { apply andb_true_iff in C2. destruct C2 as [D1 D2]. apply Z.eqb_eq in D1, D2. subst c. destruct (nth2_cons _ _ _ D2 ltac:(lia)) as [r' ->]. cbn [skipn] in H.
    destruct (comment_end r') as [n| |] eqn:E; cbn [bind] in H; try discriminate. injection H as <-. destruct (comment_end_spec _ _ E) as [R1 [R2 R3]].
    cbn [step_ok length]. split; [lia|]. right. right. exists (firstn n r'). cbn [Nat.add firstn]. rewrite R2. auto. }
  assert (NC : ~ comment_start (c :: r)).
  { intros [z [E|E]]; injection E as -> ->; [rewrite Z.eqb_refl in C1; discriminate C1|discriminate C2]. }
  destruct (Isdigit (if c =? 46 then nth2 (c :: r) else c)) eqn:D.
  { destruct (Z.eqb_spec c 46) as [->|N46].
    - destruct r as [|d z]; [discriminate|]. unfold nth2 in D. cbn [nth] in D.
      cbn [skipn] in H. remember (length (46 :: d :: z)) as f.
      destruct (pp_number o f z) as [n| |] eqn:PN; cbn [bind] in H; try discriminate. injection H as <-.
      cbn [step_ok view_kind]. split; [lia|]. apply lex_dot_number; [exact D|]. apply pp_number_rest with f; [|exact PN]. inversion Br; assumption.
    - cbn [skipn] in H. destruct (pp_number o (length (c :: r)) r) as [n| |] eqn:PN; cbn [bind] in H; try discriminate. injection H as <-.
      cbn [step_ok view_kind]. split; [lia|]. apply lex_number; [exact D|]. apply pp_number_rest with (length (c :: r)); [exact Br|exact PN]. }
  assert (NN : ~ number_start (c :: r)).
  { intros [X|[-> X]].
    - destruct (Z.eqb_spec c 46) as [->|N46]; [discriminate X|]. rewrite digit_spec in D. congruence.
    - destruct r as [|d r]; [discriminate|]. cbn in D, X. rewrite digit_spec in D. congruence. }
  destruct (read_punct o (c :: r)) as [n| |] eqn:P; cbn [bind] in H; try discriminate.
  destruct (punct_maximal o (c :: r) n L P) as [P0 P1]. destruct (Nat.eqb_spec n 0) as [->|Hn]; cbn [negb] in H.
  2: { injection H as <-. cbn [step_ok view_kind]. split; [lia|]. apply lex_punct; [exact NC|exact NN|]. apply P1. lia. }
  clear P0 P1. cbn [length] in L.
  destruct (Z.eqb_spec c 34) as [->|N34].
  { destruct (read_string_literal E8 0 (34 :: r)) as [[us m]| |] eqn:E; cbn [bind fst snd] in H; try discriminate. injection H as <-.
    cbn [step_ok view_kind]. split; [unfold read_string_literal in E; destruct (string_literal_end _); cbn [bind] in E; try discriminate; destruct (read_units _ _ _ _ _); cbn [bind] in E; try discriminate; injection E as <- <-; lia|].
    apply string_lexes with 0%nat; [exact B|constructor|reflexivity|cbn [length]; lia|exact E]. }
  assert (SPOS : forall e q us m, read_string_literal e q (c :: r) = Ok (us, m) -> (0 < m)%nat).
  { intros e q us m E. unfold read_string_literal in E. destruct (string_literal_end _); cbn [bind] in E; try discriminate. destruct (read_units _ _ _ _ _); cbn [bind] in E; try discriminate. injection E as <- <-. lia. }
  assert (CPOS : forall q v m, read_char_literal q (c :: r) = Ok (v, m) -> (0 < m)%nat).
  { intros q v m E. unfold read_char_literal in E. destruct (skipn _ _) as [|a b]; [discriminate|]. destruct (a =? 0); [discriminate|].
    match type of E with bind ?x _ = _ => destruct x as [[? ?]| |] end; cbn [bind] in E; try discriminate. destruct (find_quote _); cbn [bind] in E; try discriminate. injection E as <- <-. lia. }
  destruct ((c =? 117) && (nth2 (c :: r) =? 56) && (nth3 (c :: r) =? 34)) eqn:C3.
  { apply andb_true_iff in C3. destruct C3 as [C3 C5]. apply andb_true_iff in C3. destruct C3 as [C3 C4]. apply Z.eqb_eq in C3, C4, C5. subst c.
    destruct (nth2_cons _ _ _ C4 ltac:(lia)) as [r' ->]. destruct (nth3_cons _ _ _ _ C5 ltac:(lia)) as [z ->].
    destruct (read_string_literal E8 2 _) as [[us m]| |] eqn:E; cbn [bind fst snd] in H; try discriminate. injection H as <-.
    cbn [step_ok view_kind]. split; [eapply SPOS; exact E|]. apply string_lexes with 2%nat; [exact B|constructor|reflexivity|cbn [length]; lia|exact E]. }
  assert (STR : forall e x, x <> 34 -> strprefix [x] (spec_enc e) -> c = x -> nth2 (c :: r) = 34 ->
     (do q <- read_string_literal e 1 (c :: r); Ok (Tok (TK_STR e (fst q)) (snd q))) = Ok s -> step_ok (asm_pp o) (c :: r) s).
  { intros e x _ PX -> N2 E. destruct (nth2_cons _ _ _ N2 ltac:(lia)) as [z ->].
    destruct (read_string_literal e 1 _) as [[us m]| |] eqn:RE; cbn [bind fst snd] in E; try discriminate. injection E as <-.
    cbn [step_ok view_kind]. split; [eapply SPOS; exact RE|]. apply string_lexes with 1%nat; [exact B|exact PX|reflexivity|cbn [length]; lia|exact RE]. }
  destruct ((c =? 117) && (nth2 (c :: r) =? 34)) eqn:C4.
  { apply andb_true_iff in C4. destruct C4 as [X Y]. apply Z.eqb_eq in X, Y. apply (STR E16 117); [lia|constructor|exact X|exact Y|exact H]. }
  destruct ((c =? 76) && (nth2 (c :: r) =? 34)) eqn:C5.
  { apply andb_true_iff in C5. destruct C5 as [X Y]. apply Z.eqb_eq in X, Y. apply (STR E32 76); [lia|constructor|exact X|exact Y|exact H]. }
  destruct ((c =? 85) && (nth2 (c :: r) =? 34)) eqn:C6.
  { apply andb_true_iff in C6. destruct C6 as [X Y]. apply Z.eqb_eq in X, Y. apply (STR E32 85); [lia|constructor|exact X|exact Y|exact H]. }
  clear STR SPOS.
  assert (CHR : forall q t ct g h, charprefix (firstn q (c :: r)) ct g -> nth q (c :: r) 0 = 39 -> (q < length (c :: r))%nat ->
     (forall v, h (sext 32 v) = g v) -> (forall v, view_kind (TK_CHAR t v) = LChar ct v) ->
     (do q <- read_char_literal q (c :: r); Ok (Tok (TK_CHAR t (h (fst q))) (snd q))) = Ok s -> step_ok (asm_pp o) (c :: r) s).
  { intros q t ct g h PX NQ LQ HG VK E. destruct (read_char_literal q (c :: r)) as [[v m]| |] eqn:RE; cbn [bind fst snd] in E; try discriminate.
    injection E as <-. cbn [step_ok]. split; [eapply CPOS; exact RE|]. rewrite VK.
    destruct (char_lexes (asm_pp o) q (c :: r) v m ct g B PX NQ LQ RE) as [w [W ->]]. rewrite HG. exact W. }
  destruct (Z.eqb_spec c 39) as [->|N39].
  { apply (CHR 0%nat ty_int CInt (signed_of 8) (sext 8)); [constructor|reflexivity|cbn [length]; lia| |reflexivity|exact H].
    intros v. rewrite sext_sext by lia. apply sext_signed. lia. }
  assert (C1CHR : forall x t ct g h, c = x -> nth2 (c :: r) = 39 -> charprefix [x] ct g -> (forall v, h (sext 32 v) = g v) -> (forall v, view_kind (TK_CHAR t v) = LChar ct v) ->
     (do q <- read_char_literal 1 (c :: r); Ok (Tok (TK_CHAR t (h (fst q))) (snd q))) = Ok s -> step_ok (asm_pp o) (c :: r) s).
  { intros x t ct g h -> N2 PX HG VK E. destruct (nth2_cons _ _ _ N2 ltac:(lia)) as [z ->]. apply (CHR 1%nat t ct g h); [exact PX|reflexivity|cbn [length]; lia|exact HG|exact VK|exact E]. }
  destruct ((c =? 117) && (nth2 (c :: r) =? 39)) eqn:C7.
  { apply andb_true_iff in C7. destruct C7 as [X Y]. apply Z.eqb_eq in X, Y.
    apply (C1CHR 117 ty_ushort CU16 (fun v => v mod 65536) (fun v => v mod 65536)); [exact X|exact Y|constructor| |reflexivity|exact H].
    intros v. change 65536 with (2 ^ 16). apply sext_mod. lia. }
  destruct ((c =? 76) && (nth2 (c :: r) =? 39)) eqn:C8.
  { apply andb_true_iff in C8. destruct C8 as [X Y]. apply Z.eqb_eq in X, Y.
    apply (C1CHR 76 ty_int CInt (signed_of 32) (fun v => v)); [exact X|exact Y|constructor| |reflexivity|exact H]. intros v. apply sext_signed. lia. }
  destruct ((c =? 85) && (nth2 (c :: r) =? 39)) eqn:C9.
  { apply andb_true_iff in C9. destruct C9 as [X Y]. apply Z.eqb_eq in X, Y.
    apply (C1CHR 85 ty_uint CU32 (signed_of 32) (fun v => v)); [exact X|exact Y|constructor| |reflexivity|exact H]. intros v. apply sext_signed. lia. }
  destruct (read_ident o (length (c :: r)) true (c :: r)) as [m| |] eqn:RI; cbn [bind] in H; try discriminate.
  destruct (Nat.eqb_spec m 0); [discriminate|]. injection H as <-. cbn [step_ok view_kind]. split; [lia|].
  apply lex_name; [exact NN|lia|eapply read_ident_ids; [exact B|exact RI]| |].
  - intros pre q z PX E. inversion PX; subst pre q; injection E as X E; subst; try congruence; discriminate.
  - intros pre q g z PX E. inversion PX; subst; injection E as X E; subst; try congruence; discriminate.
Qed.

(** *** Token sequences *)
Lemma lexes_head asm p k n : lexes asm p k n -> exists c r, p = c :: r /\ c <> 10 /\ c <> 0.
Proof.
  intros [c r m D _|c r m D _|q m _ _ [[a [A1 [A2 _]]] _]|pre e body us r P _|pre t g v one junk r P _ _ _|q m _ M I _ _].
  - exists c, r. split; [reflexivity|]. unfold digit in D. lia.
  - eexists _, _. split; [reflexivity|]. lia.
  - change (In a (all_puncts asm)) in A1. rewrite puncts_c_eq in A1. destruct q as [|c r]; [destruct a; [|discriminate]; exfalso|].
    + rewrite <- puncts_c_eq in A1. exact (all_puncts_nonempty _ _ A1 eq_refl).
    + exists c, r. split; [reflexivity|].
      assert (F : match a with x :: _ => x <> 10 /\ x <> 0 | [] => False end).
      { apply in_app_or in A1. destruct A1 as [A1|A1].
        - assert (X : Forall (fun a => match a with x :: _ => x <> 10 /\ x <> 0 | [] => False end) puncts_c) by (unfold puncts_c; repeat (constructor; [lia|]); constructor).
          rewrite Forall_forall in X. exact (X a A1).
        - destruct asm; [destruct A1 as [<-|[]]; lia|destruct A1]. }
      destruct a as [|x a]; [destruct F|]. cbn [is_prefix] in A2. apply andb_true_iff in A2. destruct A2 as [A2 _]. apply Z.eqb_eq in A2. subst c. exact F.
  - inversion P; eexists _, _; (split; [reflexivity|lia]).
  - inversion P; eexists _, _; (split; [reflexivity|lia]).
  - destruct I as [f q X|f q j m IC _]; [lia|]. destruct IC as [c r X|ch u r W _].
    + exists c, r. split; [reflexivity|]. split; intros ->; discriminate X.
    + destruct (wide_head _ _ W) as [y [z [-> Y]]]. exists y, (z ++ r). split; [reflexivity|]. lia.
Qed.

Lemma tokens_blank asm g : forall off b s r l, (forall x, In x g -> is_blank x = true) -> g <> [] ->
  tokens asm (off + length g) b true r l -> tokens asm off b s (g ++ r) l.
Proof.
  induction g as [|c g IH]; intros off b s r l H N T; [congruence|].
  assert (T' : tokens asm (S off) b true (g ++ r) l).
  { destruct g as [|d g]; [cbn [app length] in *; replace (off + 1)%nat with (S off) in T by lia; exact T|].
    apply IH; [intros x X; apply H; right; exact X|discriminate|]. cbn [length] in *. replace (S off + S (length g))%nat with (off + S (S (length g)))%nat by lia. exact T. }
  assert (C : is_blank c = true) by (apply H; left; reflexivity). clear - T' C. cbn [app]. remember (S off) as off' eqn:O. remember true as s' eqn:Q.
  destruct T' as [off' b s' h b' s'' G|off' b s' h b' s'' k w r' l G W LX T]; subst.
  - replace (S off + length h)%nat with (off + length (c :: h))%nat by (cbn [length]; lia). eapply (tok_end asm off b s (c :: h)). apply gap_blank; eassumption.
  - replace (S off + length h)%nat with (off + length (c :: h))%nat in * by (cbn [length]; lia).
    eapply (tok_next asm off b s (c :: h)); [|exact W|exact LX|exact T]. apply gap_blank; eassumption.
Qed.
Lemma tokens_newline asm off b s r l : tokens asm (S off) true false r l -> tokens asm off b s (10 :: r) l.
Proof.
  intros T. remember (S off) as off' eqn:O. remember true as b0 eqn:Q0. remember false as s' eqn:Q.
  destruct T as [off' b1 s' h b' s'' G|off' b1 s' h b' s'' k w r' l G W LX T]; subst.
  - replace (S off + length h)%nat with (off + length (10%Z :: h))%nat by (cbn [length]; lia). eapply (tok_end asm off b s (10 :: h)). apply gap_newline; eassumption.
  - replace (S off + length h)%nat with (off + length (10%Z :: h))%nat in * by (cbn [length]; lia).
    eapply (tok_next asm off b s (10 :: h)); [|exact W|exact LX|exact T]. apply gap_newline; eassumption.
Qed.
Lemma tokens_block asm t off b s r l : (forall u v, t <> u ++ 42 :: 47 :: v) ->
  tokens asm (off + length t + 4) b true r l -> tokens asm off b s (47 :: 42 :: t ++ 42 :: 47 :: r) l.
Proof.
  intros NC T. remember (off + length t + 4)%nat as off' eqn:O. remember true as s' eqn:Q.
  assert (LL : forall h, (off + length t + 4 + length h)%nat = (off + length (47 :: 42 :: t ++ 42 :: 47 :: h)%Z)%nat) by (intros; cbn [length]; rewrite app_length; cbn [length]; lia).
  destruct T as [off' b s' h b' s'' G|off' b s' h b' s'' k w r' l G W LX T]; subst.
  - rewrite LL. replace (47 :: 42 :: t ++ 42 :: 47 :: h ++ [0]) with ((47 :: 42 :: t ++ 42 :: 47 :: h) ++ [0]) by (cbn [app]; rewrite <- app_assoc; reflexivity).
    eapply tok_end. apply gap_block; eassumption.
  - rewrite LL in *. replace (47 :: 42 :: t ++ 42 :: 47 :: h ++ w ++ r') with ((47 :: 42 :: t ++ 42 :: 47 :: h) ++ w ++ r') by (cbn [app]; rewrite <- app_assoc; reflexivity).
    eapply tok_next; [|exact W|exact LX|exact T]. apply gap_block; eassumption.
Qed.
Lemma gap_nl_head b s g b' s' c h : gap b s g b' s' -> g = c :: h -> c <> 10 -> c <> 0.
Proof. intros G. destruct G; intros E N; try discriminate; injection E as <- _; try lia. intros ->. discriminate. Qed.
Lemma tokens_line asm t off b s r l : ~ In 10 t ->
  tokens asm (off + length t + 2) b true (10 :: r) l -> tokens asm off b s (47 :: 47 :: t ++ 10 :: r) l.
Proof.
  intros NC T. remember (off + length t + 2)%nat as off' eqn:O. remember true as s' eqn:Q. remember (10 :: r) as p eqn:P.
  assert (LL : forall h, (off + length t + 2 + length (10%Z :: h))%nat = (off + length (47 :: 47 :: t ++ 10 :: h)%Z)%nat) by (intros; cbn [length]; rewrite app_length; cbn [length]; lia).
  destruct T as [off' b s' h b' s'' G|off' b s' h b' s'' k w r' l G W LX T]; subst.
  - destruct h as [|c h]; [discriminate|]. injection P as -> <-. rewrite LL.
    cbn [app]. replace (47 :: 47 :: t ++ 10 :: h ++ [0]) with ((47 :: 47 :: t ++ 10 :: h) ++ [0]) by (cbn [app]; rewrite <- app_assoc; reflexivity).
    eapply tok_end. apply gap_line; eassumption.
  - destruct h as [|c h]. { exfalso. cbn [app] in P. destruct (lexes_head _ _ _ _ LX) as [x [y [E [N _]]]]. rewrite E in P. injection P as -> _. congruence. }
    injection P as -> <-. rewrite LL in *.
    cbn [app]. replace (47 :: 47 :: t ++ 10 :: h ++ w ++ r') with ((47 :: 47 :: t ++ 10 :: h) ++ w ++ r') by (cbn [app]; rewrite <- app_assoc; reflexivity).
    eapply tok_next; [|exact W|exact LX|exact T]. apply gap_line; eassumption.
Qed.

Theorem tokenize2_tokens o f : forall b off bol sp l, ~ In 0 b -> bytes (b ++ [0]) ->
  tokenize2 o f (b ++ [0]) off bol sp = Ok l -> tokens (asm_pp o) off bol sp (b ++ [0]) (map view l).
Proof.
  induction f as [|f IH]; intros b off bol sp l N B H; [discriminate|]. destruct b as [|c b].
  { cbn [app tokenize2 Z.eqb] in H. injection H as <-. cbn [map view kind loc tlen at_bol has_space view_kind].
    pose proof (tok_end (asm_pp o) off bol sp [] bol sp (gap_nil _ _)) as X. cbn [length app] in X. rewrite Nat.add_0_r in X. exact X. }
  assert (Nc : c <> 0) by (intros ->; apply N; left; reflexivity). apply Z.eqb_neq in Nc.
  pose proof (lex_step_ok o ((c :: b) ++ [0])) as OK. cbn [app tokenize2] in H. rewrite Nc in H. change (c :: b ++ [0]) with ((c :: b) ++ [0]) in *.
  destruct (lex_step o ((c :: b) ++ [0])) as [s| |]; cbn [bind] in H; try discriminate.
  specialize (OK s B ltac:(rewrite app_length; cbn [length]; lia) eq_refl).
  assert (SK : forall n off bol sp l, tokenize2 o f (skipn n ((c :: b) ++ [0])) off bol sp = Ok l -> (n <= length (c :: b))%nat /\
      tokens (asm_pp o) off bol sp (skipn n ((c :: b) ++ [0])) (map view l)).
  { intros n off' bol' sp' l' E. destruct (le_lt_dec n (length (c :: b))) as [L|L].
    - split; [exact L|]. pose proof (bytes_skipn n _ B) as Bn. rewrite skipn_term in * by exact L. apply IH; [apply no0_skipn; exact N|exact Bn|exact E].
    - exfalso. rewrite skipn_all2 in E by (rewrite app_length; cbn [length] in *; lia). destruct f; discriminate. }
  destruct s as [|n|k n]; cbn [step_ok] in OK.
  - destruct OK as [r E]. injection E as -> <-. apply tokens_newline. apply (SK 1%nat). exact H.
  - destruct OK as [Ln SP]. destruct (SK _ _ _ _ _ H) as [L T]. rewrite <- (firstn_skipn n ((c :: b) ++ [0])).
    assert (LF : length (firstn n ((c :: b) ++ [0])) = n) by (rewrite firstn_length; lia).
    destruct SP as [SP|[[t [r [E1 [E2 E3]]]]|[t [E1 E2]]]].
    + apply tokens_blank; [exact SP|intros X; rewrite X in LF; cbn [length] in LF; lia|]. rewrite LF. exact T.
    + change (c :: b ++ [0]) with ((c :: b) ++ [0]) in *. rewrite E1 in LF |- *. rewrite E3 in T |- *. cbn [app]. apply tokens_line; [exact E2|]. cbn [length] in LF. replace (off + length t + 2)%nat with (off + n)%nat by lia. exact T.
    + change (c :: b ++ [0]) with ((c :: b) ++ [0]) in *. rewrite E1 in LF |- *. cbn [app]. rewrite <- app_assoc. cbn [app]. apply tokens_block; [exact E2|]. cbn [length] in LF. rewrite app_length in LF. cbn [length] in LF.
      replace (off + length t + 4)%nat with (off + n)%nat by lia. exact T.
  - destruct OK as [Ln LX]. destruct (tokenize2 o f (skipn n _) _ _ _) as [l'| |] eqn:E; cbn [bind] in H; try discriminate. injection H as <-.
    destruct (SK _ _ _ _ _ E) as [L T]. cbn [map]. unfold view at 1. cbn [kind loc tlen at_bol has_space].
    assert (LF : length (firstn n ((c :: b) ++ [0])) = n) by (rewrite firstn_length, app_length; cbn [length] in *; lia).
    pose proof (tok_next (asm_pp o) off bol sp [] bol sp (view_kind k) (firstn n ((c :: b) ++ [0])) (skipn n ((c :: b) ++ [0])) (map view l') (gap_nil _ _)) as X.
    rewrite firstn_skipn, LF in X. cbn [app length] in X. rewrite Nat.add_0_r in X. apply X; [|exact LX|exact T].
    intros Y. change (firstn n ((c :: b) ++ [0]) = []) in Y. rewrite Y in LF. cbn [length] in LF. lia.
Qed.

(** *** Line numbers *)
Definition tloc (t : tok) : nat := snd (fst (fst (fst t))).
Lemma tokens_len asm off b s p l : tokens asm off b s p l -> (1 <= length p)%nat.
Proof. intros T. induction T; rewrite ?app_length in *; cbn [length] in *; lia. Qed.
(** Offsets increase and stay inside the text. *)
Lemma tokens_locs asm off b s p l : tokens asm off b s p l ->
  (forall x, In x (map tloc l) -> (off <= x <= off + length p - 1)%nat) /\
  (forall i j, (i < j < length (map tloc l))%nat -> (nth i (map tloc l) 0 < nth j (map tloc l) 0)%nat).
Proof.
  intros T. induction T as [off b s g b' s' G|off b s g b' s' k w r l G W LX T [I1 I2]].
  - cbn [map]. change (tloc (LEnd, (off + length g)%nat, 0%nat, true, s')) with (off + length g)%nat. split.
    + intros x [<-|[]]. rewrite app_length. cbn [length]. lia.
    + cbn [length]. intros; lia.
  - assert (LW : (1 <= length w)%nat) by (destruct w; [congruence|cbn [length]; lia]). pose proof (tokens_len _ _ _ _ _ _ T) as LR. cbn [map]. change (tloc (k, (off + length g)%nat, length w, b', s')) with (off + length g)%nat. split.
    + intros x [<-|X]; rewrite !app_length; [lia|]. specialize (I1 x X). lia.
    + intros i j [H1 H2]. cbn [length] in H2. destruct j as [|j]; [lia|]. cbn [nth]. destruct i as [|i].
      * assert (X : In (nth j (map tloc l) 0%nat) (map tloc l)) by (apply nth_In; lia). specialize (I1 _ X). lia.
      * apply I2. lia.
Qed.

Theorem token_lines o b l : ~ In 0 b -> bytes b -> tokenize o (b ++ [0]) = Ok l ->
  add_line_numbers (b ++ [0]) 0 1 (map loc l) = map (fun t => line_at b (loc t)) l.
Proof.
  intros N B H. assert (B0 : bytes (b ++ [0])) by (apply Forall_app; split; [exact B|constructor; [lia|constructor]]).
  destruct (tokens_locs _ _ _ _ _ _ (tokenize2_tokens _ _ _ _ _ _ _ N B0 H)) as [T1 T2].
  assert (E : map tloc (map view l) = map loc l) by (rewrite map_map; reflexivity). rewrite E in *.
  rewrite add_lines_gen; [|exact N| |exact T2].
  - rewrite map_map. apply map_ext_in. intros t Ht. unfold line_at. rewrite Nat.sub_0_r. do 2 f_equal. rewrite firstn_app.
    assert (L : (loc t <= length b)%nat). { specialize (T1 (loc t) (in_map loc _ _ Ht)). rewrite app_length in T1. cbn [length] in T1. lia. }
    replace (loc t - length b)%nat with 0%nat by lia. cbn [firstn]. rewrite app_nil_r. reflexivity.
  - intros x X. specialize (T1 x X). rewrite app_length in T1. cbn [length] in T1. lia.
Qed.

(** C07 for a whole file *)
Theorem file_in_bounds o s ls l : ~ In 0 s -> phys_lines s = ls ++ [l; []] -> ends_bs l = false ->
  tokenize o (remove_backslash_newline (canonicalize_newline (s ++ [0]))) <> UB.
Proof.
  intros N P E. rewrite phases_text by exact N. apply tokenize2_safe.
  - apply logical_no0. apply phys_no0. exact N.
  - right. rewrite P. apply logical_end. exact E.
  - rewrite app_length. cbn [length]. lia.
Qed.
Theorem tokenize_tokens o b l : ~ In 0 b -> bytes (b ++ [0]) ->
  tokenize o (b ++ [0]) = Ok l -> tokens (asm_pp o) 0 true false (b ++ [0]) (map view l).
Proof. intros N B H. eapply tokenize2_tokens; eassumption. Qed.
Theorem tokenize_in_bounds o b : ~ In 0 b -> b = [] \/ last b 0 = 10 -> tokenize o (b ++ [0]) <> UB.
Proof. intros N E. apply tokenize2_safe; [exact N|exact E|]. rewrite app_length. cbn [length]. lia. Qed.
