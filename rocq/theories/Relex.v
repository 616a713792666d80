(** What stands after a token matters to its reading only up to the next white space. *)
From Coq Require Import ZArith List Bool Lia.
From Verif Require Import Base IntModel UnicodeTables UnicodeModel LexModel PrintModel PrintSpec LexTok.
Import ListNotations.
Local Open Scope Z_scope.

Definition gapch (c : Z) : Prop := c = 0 \/ c = 10 \/ c = 32 \/ c = 9 \/ c = 11 \/ c = 12 \/ c = 47.
Definition stopch (d : Z) : Prop := d = 10 \/ d = 32.

Ltac ob H := match type of H with bind ?e _ = Ok _ => let E := fresh "E" in destruct e eqn:E; cbn [bind] in H; [|discriminate H|discriminate H] end.

(** decode_utf8 up to a byte that does not continue a character *)
Definition nocont (c : Z) : Prop := Z.shiftr c 6 =? MASK2 1 1 = false.
Lemma gap_nocont c : gapch c -> nocont c.
Proof. intros [->|[->|[->|[->|[->|[->| ->]]]]]]; reflexivity. Qed.
Lemma stop_nocont c : stopch c -> nocont c.
Proof. intros [->| ->]; reflexivity. Qed.
Lemma decode_tail_local c d r r' : nocont c -> nocont d ->
  forall n x a, decode_tail n a (x ++ c :: r) = decode_tail n a (x ++ d :: r') /\
    (forall v, decode_tail n a (x ++ c :: r) = Ok v -> (n <= length x)%nat).
Proof.
  intros NC ND. induction n as [|n IH]; intros x a; [split; [reflexivity|lia]|].
  destruct x as [|y x]; cbn [app decode_tail].
  - rewrite NC, ND. split; [reflexivity|discriminate].
  - destruct (Z.shiftr y 6 =? MASK2 1 1); [|split; [reflexivity|discriminate]].
    destruct (IH x (Z.lor (Z.shiftl a 6 mod two32) (Z.land y (MASK 6)))) as [A B]. split; [exact A|].
    intros v V. apply B in V. cbn [length]. lia.
Qed.
Lemma decode_local c d r r' y x : nocont c -> nocont d ->
  decode_utf8 (y :: x ++ c :: r) = decode_utf8 (y :: x ++ d :: r') /\
  (forall u n, decode_utf8 (y :: x ++ c :: r) = Ok (u, n) -> (1 <= n <= S (length x))%nat).
Proof.
  intros NC ND. unfold decode_utf8.
  destruct (y <? 128); [split; [reflexivity|]; intros u n H; injection H as <- <-; lia|].
  assert (G : forall k a, (do c0 <- decode_tail (S k - 1) a (x ++ c :: r); Ok (c0, S k)) = (do c0 <- decode_tail (S k - 1) a (x ++ d :: r'); Ok (c0, S k)) /\
     forall u n, (do c0 <- decode_tail (S k - 1) a (x ++ c :: r); Ok (c0, S k)) = Ok (u, n) -> (1 <= n <= S (length x))%nat).
  { intros k a. replace (S k - 1)%nat with k by lia. destruct (decode_tail_local c d r r' NC ND k x a) as [A B]. rewrite <- A. split; [reflexivity|].
    intros u n H. ob H. injection H as <- <-. specialize (B _ eq_refl). lia. }
  destruct (MASK2 4 4 <=? y); [cbn [bind fst snd]; apply G|].
  destruct (MASK2 3 5 <=? y); [cbn [bind fst snd]; apply G|].
  destruct (MASK2 2 6 <=? y); [cbn [bind fst snd]; apply G|].
  split; [reflexivity|discriminate].
Qed.

Lemma skipn_pre {A} (t q : list A) n : (n <= length t)%nat -> skipn n (t ++ q) = skipn n t ++ q.
Proof. intros H. rewrite skipn_app. replace (n - length t)%nat with 0%nat by lia. reflexivity. Qed.

Lemma gap_plain c : gapch c -> Isalnum c = false /\ (c =? 95) = false /\ (c =? 36) = false /\ (128 <=? c) = false /\ (c =? 46) = false /\ (c =? 39) = false /\
  existsb (Z.eqb c) [101; 69; 112; 80] = false /\ existsb (Z.eqb c) [43; 45] = false /\ Isdigit c = false /\ (c =? 34) = false /\ (c =? 56) = false /\ (c =? 61) = false /\
  existsb (Z.eqb c) [45; 38; 43; 61; 124; 60; 62; 35; 46] = false.
Proof. intros [->|[->|[->|[->|[->|[->| ->]]]]]]; repeat split. Qed.
Lemma stop_gap c : stopch c -> gapch c.
Proof. unfold stopch, gapch. tauto. Qed.

(** Identifiers *)
Section Local.
  Variables (o : lopt) (c d : Z) (r r' : list Z).
  Hypothesis (GC : gapch c) (SD : stopch d) (NR : r' <> []).

  Lemma read_ident_local f : forall t x first f', read_ident o f first (t ++ x ++ c :: r) = Ok (length t) -> (length t < f')%nat ->
    read_ident o f' first (t ++ x ++ d :: r') = Ok (length t).
  Proof.
    destruct (gap_plain c GC) as [C1 [C2 [C3 [C4 _]]]]. destruct (gap_plain d (stop_gap d SD)) as [D1 [D2 [D3 [D4 _]]]].
    induction f as [|f IH]; intros t x first f' H L; [discriminate|].
    destruct f' as [|f']; [lia|]. destruct t as [|y t].
    - cbn [app] in H |- *. destruct x as [|y x]; cbn [app] in H |- *; cbn [read_ident length] in H |- *.
      + rewrite D3, D1, D2, D4. reflexivity.
      + destruct (y =? 36). { destruct (asm_pp o); [reflexivity|]. ob H. discriminate. }
        destruct (Isalnum y || (y =? 95)). { ob H. discriminate. }
        destruct (128 <=? y); [|reflexivity].
        destruct (decode_local c d r r' y x (gap_nocont c GC) (stop_nocont d SD)) as [A B]. rewrite <- A.
        ob H. destruct a as [u n]. specialize (B u n eq_refl). cbn [fst snd bind] in H |- *.
        destruct (if first then is_ident1 u else is_ident2 u); [|reflexivity]. ob H. injection H as H. lia.
    - cbn [app] in H |- *. cbn [read_ident length] in H |- *.
      assert (K : forall n b, (1 <= n)%nat -> (do m <- read_ident o f b (skipn n (y :: t ++ x ++ c :: r)); Ok (n + m)%nat) = Ok (S (length t)) ->
        (do m <- read_ident o f' b (skipn n (y :: t ++ x ++ d :: r')); Ok (n + m)%nat) = Ok (S (length t))).
      { intros n b N K. ob K. injection K as K.
        change (y :: t ++ x ++ c :: r) with ((y :: t) ++ x ++ c :: r) in E. change (y :: t ++ x ++ d :: r') with ((y :: t) ++ x ++ d :: r').
        rewrite skipn_pre in E by (cbn [length]; lia). rewrite skipn_pre by (cbn [length]; lia).
        assert (A : a = length (skipn n (y :: t))) by (rewrite skipn_length; cbn [length]; lia).
        rewrite A in E. rewrite (IH _ _ _ f' E) by (rewrite <- A; cbn [length] in L; lia). cbn [bind]. f_equal. lia. }
      destruct (y =? 36). { destruct (asm_pp o); [discriminate|]. exact (K 1%nat false (le_n _) H). }
      destruct (Isalnum y || (y =? 95)). { exact (K 1%nat false (le_n _) H). }
      destruct (128 <=? y); [|discriminate].
      change (y :: t ++ x ++ c :: r) with (y :: (t ++ x ++ c :: r)) in H. rewrite (app_assoc t x) in H. rewrite (app_assoc t x).
      destruct (decode_local c d r r' y (t ++ x) (gap_nocont c GC) (stop_nocont d SD)) as [A B]. rewrite <- A.
      ob H. destruct a as [u n]. specialize (B u n eq_refl). cbn [fst snd bind] in H |- *.
      destruct (if first then is_ident1 u else is_ident2 u); [|discriminate].
      rewrite <- (app_assoc t x) in H |- *. apply K; [lia|exact H].
  Qed.

  Lemma pp_number_local f : forall t x f', pp_number o f (t ++ x ++ c :: r) = Ok (length t) -> (length t < f')%nat ->
    pp_number o f' (t ++ x ++ d :: r') = Ok (length t).
  Proof.
    destruct (gap_plain c GC) as [C1 [C2 [C3 [C4 [C5 [C6 [C7 [C8 _]]]]]]]].
    destruct (gap_plain d (stop_gap d SD)) as [D1 [D2 [D3 [D4 [D5 [D6 [D7 [D8 _]]]]]]]].
    induction f as [|f IH]; intros t x f' H L; [discriminate|].
    destruct f' as [|f']; [lia|]. destruct t as [|y t].
    - cbn [app] in H |- *. destruct x as [|y x].
      + cbn [app] in H |- *. cbn [pp_number length] in H |- *. rewrite D5, D6, D7, D3, D1, D2, D4. cbn [andb orb].
        destruct (d =? 0); [reflexivity|]. destruct r'; [congruence|reflexivity].
      + change ((y :: x) ++ c :: r) with (y :: (x ++ c :: r)) in H. change ((y :: x) ++ d :: r') with (y :: (x ++ d :: r')).
        cbn [pp_number length] in H |- *.
        assert (GO : forall n, (1 <= n)%nat -> (do m <- pp_number o f (skipn n (y :: x ++ c :: r)); Ok (n + m)%nat) <> Ok 0%nat).
        { intros n N K. ob K. injection K as K. lia. }
        destruct (y =? 46). { apply GO in H; [destruct H|lia]. }
        assert (R : (if y =? 36 then (if asm_pp o then Ok 0%nat else do m <- pp_number o f (skipn 1 (y :: x ++ c :: r)); Ok (1 + m)%nat)
            else if Isalnum y || (y =? 95) then do m <- pp_number o f (skipn 1 (y :: x ++ c :: r)); Ok (1 + m)%nat
            else if 128 <=? y then do q <- decode_utf8 (y :: x ++ c :: r); if is_ident2 (fst q) then do m <- pp_number o f (skipn (snd q) (y :: x ++ c :: r)); Ok (snd q + m)%nat else Ok 0%nat
            else Ok 0%nat) = Ok 0%nat ->
          (if y =? 36 then (if asm_pp o then Ok 0%nat else do m <- pp_number o f' (skipn 1 (y :: x ++ d :: r')); Ok (1 + m)%nat)
            else if Isalnum y || (y =? 95) then do m <- pp_number o f' (skipn 1 (y :: x ++ d :: r')); Ok (1 + m)%nat
            else if 128 <=? y then do q <- decode_utf8 (y :: x ++ d :: r'); if is_ident2 (fst q) then do m <- pp_number o f' (skipn (snd q) (y :: x ++ d :: r')); Ok (snd q + m)%nat else Ok 0%nat
            else Ok 0%nat) = Ok 0%nat).
        { intros R. destruct (y =? 36). { destruct (asm_pp o); [reflexivity|]. apply GO in R; [destruct R|lia]. }
          destruct (Isalnum y || (y =? 95)). { apply GO in R; [destruct R|lia]. }
          destruct (128 <=? y); [|reflexivity].
          destruct (decode_local c d r r' y x (gap_nocont c GC) (stop_nocont d SD)) as [A B]. rewrite <- A. clear A.
          destruct (decode_utf8 (y :: x ++ c :: r)) as [[u n]| |] eqn:E; cbn [bind] in R |- *; [|discriminate R|discriminate R].
          specialize (B u n eq_refl). cbn [fst snd] in R |- *.
          destruct (is_ident2 u); [|reflexivity]. apply GO in R; [destruct R|lia]. }
        destruct (y =? 39).
        { destruct x as [|z x]; cbn [app] in H, R |- *.
          - rewrite C1 in H. rewrite D1. apply R, H.
          - destruct (Isalnum z); [apply GO in H; [destruct H|lia]|apply R, H]. }
        destruct (y =? 0); [reflexivity|].
        destruct x as [|z x]; cbn [app] in H, R |- *.
        * rewrite C8 in H. rewrite D8. rewrite andb_false_r in H |- *. apply R, H.
        * destruct (existsb (Z.eqb y) [101; 69; 112; 80] && existsb (Z.eqb z) [43; 45]); [apply GO in H; [destruct H|lia]|apply R, H].
    - change ((y :: t) ++ x ++ c :: r) with (y :: (t ++ x ++ c :: r)) in H. change ((y :: t) ++ x ++ d :: r') with (y :: (t ++ x ++ d :: r')).
      cbn [pp_number length] in H |- *.
      assert (K : forall n, (1 <= n)%nat -> (do m <- pp_number o f (skipn n (y :: t ++ x ++ c :: r)); Ok (n + m)%nat) = Ok (S (length t)) ->
        (do m <- pp_number o f' (skipn n (y :: t ++ x ++ d :: r')); Ok (n + m)%nat) = Ok (S (length t))).
      { intros n N K. ob K. injection K as K.
        change (y :: t ++ x ++ c :: r) with ((y :: t) ++ x ++ c :: r) in E. change (y :: t ++ x ++ d :: r') with ((y :: t) ++ x ++ d :: r').
        rewrite skipn_pre in E by (cbn [length]; lia). rewrite skipn_pre by (cbn [length]; lia).
        assert (A : a = length (skipn n (y :: t))) by (rewrite skipn_length; cbn [length]; lia).
        rewrite A in E. rewrite (IH _ _ f' E) by (rewrite <- A; cbn [length] in L; lia). cbn [bind]. f_equal. lia. }
      destruct (y =? 46). { apply K; [lia|exact H]. }
      assert (R : (if y =? 36 then (if asm_pp o then Ok 0%nat else do m <- pp_number o f (skipn 1 (y :: t ++ x ++ c :: r)); Ok (1 + m)%nat)
            else if Isalnum y || (y =? 95) then do m <- pp_number o f (skipn 1 (y :: t ++ x ++ c :: r)); Ok (1 + m)%nat
            else if 128 <=? y then do q <- decode_utf8 (y :: t ++ x ++ c :: r); if is_ident2 (fst q) then do m <- pp_number o f (skipn (snd q) (y :: t ++ x ++ c :: r)); Ok (snd q + m)%nat else Ok 0%nat
            else Ok 0%nat) = Ok (S (length t)) ->
          (if y =? 36 then (if asm_pp o then Ok 0%nat else do m <- pp_number o f' (skipn 1 (y :: t ++ x ++ d :: r')); Ok (1 + m)%nat)
            else if Isalnum y || (y =? 95) then do m <- pp_number o f' (skipn 1 (y :: t ++ x ++ d :: r')); Ok (1 + m)%nat
            else if 128 <=? y then do q <- decode_utf8 (y :: t ++ x ++ d :: r'); if is_ident2 (fst q) then do m <- pp_number o f' (skipn (snd q) (y :: t ++ x ++ d :: r')); Ok (snd q + m)%nat else Ok 0%nat
            else Ok 0%nat) = Ok (S (length t))).
      { intros R. destruct (y =? 36). { destruct (asm_pp o); [discriminate|]. apply K; [lia|exact R]. }
        destruct (Isalnum y || (y =? 95)). { apply K; [lia|exact R]. }
        destruct (128 <=? y); [|discriminate].
        pose proof (decode_local c d r r' y (t ++ x) (gap_nocont c GC) (stop_nocont d SD)) as AB. rewrite <- (app_assoc t x (d :: r')) in AB. rewrite <- (app_assoc t x (c :: r)) in AB. destruct AB as [A B]. rewrite <- A. clear A.
        destruct (decode_utf8 (y :: t ++ x ++ c :: r)) as [[u n]| |] eqn:E; cbn [bind] in R |- *; [|discriminate R|discriminate R].
        specialize (B u n eq_refl). cbn [fst snd] in R |- *.
        destruct (is_ident2 u); [|discriminate]. apply K; [lia|exact R]. }
      assert (NX : forall (g : Z -> bool) (A B A' B' : outcome nat), g c = false -> g d = false ->
          (A = Ok (S (length t)) -> A' = Ok (S (length t))) -> (B = Ok (S (length t)) -> B' = Ok (S (length t))) ->
          match t ++ x ++ c :: r with [] => UB | z :: _ => if g z then A else B end = Ok (S (length t)) ->
          match t ++ x ++ d :: r' with [] => UB | z :: _ => if g z then A' else B' end = Ok (S (length t))).
      { intros g A B A' B' G1 G2 HA HB. destruct t as [|z t]; [destruct x as [|z x]|]; cbn [app]; try (destruct (g z); assumption).
        rewrite G1, G2. exact HB. }
      destruct (y =? 39). { revert H. apply (NX Isalnum); [exact C1|exact D1|intros; apply K; [lia|assumption]|exact R]. }
      destruct (y =? 0); [discriminate|].
      revert H. apply (NX (fun z => existsb (Z.eqb y) [101; 69; 112; 80] && existsb (Z.eqb z) [43; 45])); [rewrite C8; apply andb_false_r|rewrite D8; apply andb_false_r|intros; apply K; [lia|assumption]|exact R].
  Qed.

  (** Punctuators *)
  Lemma punct_single y e q : gapch e ->
    read_punct o (y :: e :: q) =
      if existsb (Z.eqb y) [45; 38; 43; 61; 124; 60; 62; 33; 37; 42; 47; 94; 35; 46; 40; 41; 44; 58; 59; 63; 64; 91; 92; 93; 96; 123; 125; 126] then Ok 1%nat
      else if y =? 36 then Ok (if asm_pp o then 1%nat else 0%nat) else Ok 0%nat.
  Proof.
    intros GE. destruct (Z.eq_dec e y) as [->|N].
    - destruct GE as [->|[->|[->|[->|[->|[->| ->]]]]]]; reflexivity.
    - unfold read_punct. apply Z.eqb_neq in N. rewrite N.
      assert (E1 : (e =? 62) = false /\ (e =? 61) = false) by (destruct GE as [->|[->|[->|[->|[->|[->| ->]]]]]]; split; reflexivity).
      destruct E1 as [-> ->]. rewrite !andb_false_r. cbn [orb existsb].
      repeat match goal with |- context [y =? ?k] => destruct (y =? k) eqn:?; cbn [orb] end; try reflexivity; lia.
  Qed.
  Lemma read_punct_local q : q <> [] ->
    read_punct o (q ++ c :: r) = read_punct o (q ++ d :: r').
  Proof.
    intros NE. destruct (gap_plain c GC) as [_ [_ [_ [_ [C5 [_ [_ [_ [_ [_ [_ [C12 _]]]]]]]]]]]].
    destruct (gap_plain d (stop_gap d SD)) as [_ [_ [_ [_ [D5 [_ [_ [_ [_ [_ [_ [D12 _]]]]]]]]]]]].
    destruct q as [|y [|z [|w q]]]; [congruence| | |reflexivity].
    - cbn [app]. rewrite (punct_single y c r GC), (punct_single y d r' (stop_gap d SD)). reflexivity.
    - cbn [app]. unfold read_punct. rewrite C12, D12.
      destruct (y =? 46) eqn:Y; [apply Z.eqb_eq in Y; subst y; rewrite C5, D5; reflexivity|reflexivity].
  Qed.

  (** Literals *)
  Lemma string_end_local p : forall n, string_literal_end p = Ok n -> exists b q, p = b ++ 34 :: q /\ length b = n /\ forall q', string_literal_end (b ++ 34 :: q') = Ok n.
  Proof.
    assert (G : forall k p n, (length p <= k)%nat -> string_literal_end p = Ok n -> exists b q, p = b ++ 34 :: q /\ length b = n /\ forall q', string_literal_end (b ++ 34 :: q') = Ok n).
    { induction k as [|k IH]; intros [|y p0] n L H; try discriminate H; [cbn [length] in L; lia|].
      cbn [string_literal_end length] in H, L.
      destruct (y =? 34) eqn:Y. { injection H as <-. apply Z.eqb_eq in Y. subst y. exists [], p0. repeat split. }
      destruct ((y =? 10) || (y =? 0)) eqn:Y2; [discriminate|].
      destruct (y =? 92) eqn:Y3.
      - destruct p0 as [|z p0]; [discriminate|]. ob H. injection H as <-. cbn [length] in L.
        destruct (IH p0 a ltac:(lia) E) as [b [q [-> [<- Q]]]]. exists (y :: z :: b), q. repeat split.
        intros q'. cbn [app string_literal_end]. rewrite Y, Y2, Y3, Q. reflexivity.
      - ob H. injection H as <-. destruct (IH p0 a ltac:(lia) E) as [b [q [-> [<- Q]]]]. exists (y :: b), q. repeat split.
        intros q'. cbn [app string_literal_end]. rewrite Y, Y2, Y3, Q. reflexivity. }
    intros n. apply (G (length p) p n (le_n _)).
  Qed.
  Lemma find_quote_local p : forall n, find_quote p = Ok n -> exists b q, p = b ++ 39 :: q /\ length b = n /\ forall q', find_quote (b ++ 39 :: q') = Ok n.
  Proof.
    induction p as [|y p IH]; intros n H; [discriminate|]. cbn [find_quote] in H.
    destruct (y =? 39) eqn:Y. { injection H as <-. apply Z.eqb_eq in Y. subst y. exists [], p. repeat split. }
    destruct (y =? 0) eqn:Y2; [discriminate|]. ob H. injection H as <-. destruct (IH a eq_refl) as [b [q [-> [<- Q]]]].
    exists (y :: b), q. repeat split. intros q'. cbn [app find_quote]. rewrite Y, Y2, Q. reflexivity.
  Qed.
End Local.

(** An escape or character ends at a quote at the latest. *)
Section Quote.
  Variable k : Z.
  Hypothesis (K : k = 34 \/ k = 39).
  Lemma hex_local q q' b : forall a, read_hex a (b ++ k :: q) = read_hex a (b ++ k :: q') /\ forall v n, read_hex a (b ++ k :: q) = Ok (v, n) -> (n <= length b)%nat.
  Proof.
    assert (X : Isxdigit k = false) by (destruct K as [-> | ->]; reflexivity).
    induction b as [|y b IH]; intros a; cbn [app read_hex].
    - rewrite X. split; [reflexivity|]. intros v n H. injection H as _ <-. cbn [length]. lia.
    - destruct (Isxdigit y); [|split; [reflexivity|intros v n H; injection H as _ <-; lia]].
      destruct (IH ((a * 16 + from_hex y) mod two32)) as [A B]. rewrite <- A. split; [reflexivity|]. intros v n H.
      destruct (read_hex ((a * 16 + from_hex y) mod two32) (b ++ k :: q)) as [[u m]| |]; cbn [bind] in H; try discriminate H.
      injection H as _ <-. specialize (B u m eq_refl). cbn [length snd]. lia.
  Qed.
  Lemma escape_local q q' b : read_escaped_char (b ++ k :: q) = read_escaped_char (b ++ k :: q') /\
    forall v n, read_escaped_char (b ++ k :: q) = Ok (v, n) -> (1 <= n <= S (length b))%nat.
  Proof.
    assert (X : Isxdigit k = false /\ Inrange k 48 55 = false) by (destruct K as [-> | ->]; split; reflexivity). destruct X as [X1 X2].
    assert (X3 : (k =? 120) = false) by (destruct K as [-> | ->]; reflexivity).
    destruct b as [|y b]; cbn [app read_escaped_char length].
    - rewrite X2, X3. split; [reflexivity|]. intros v n H. injection H as _ <-. lia.
    - destruct (Inrange y 48 55).
      { destruct b as [|z b]; cbn [app length].
        - rewrite X2. split; [reflexivity|]. intros v n H. injection H as _ <-. lia.
        - destruct (Inrange z 48 55); [|split; [reflexivity|intros v n H; injection H as _ <-; lia]].
          destruct b as [|w b]; cbn [app length].
          + rewrite X2. split; [reflexivity|]. intros v n H. injection H as _ <-. lia.
          + split; [reflexivity|]. intros v n H. destruct (Inrange w 48 55); injection H as _ <-; lia. }
      destruct (y =? 120).
      { destruct b as [|z b].
        - cbn [app]. rewrite X1. split; [reflexivity|discriminate].
        - destruct (hex_local q q' (z :: b) 0) as [A B]. cbn [app] in A, B |- *. rewrite <- A. split; [reflexivity|].
          intros v n H. destruct (Isxdigit z); [|discriminate].
          destruct (read_hex 0 (z :: b ++ k :: q)) as [[u m]| |]; cbn [bind] in H; try discriminate H.
          injection H as _ <-. specialize (B u m eq_refl). cbn [length snd] in *. lia. }
      split; [reflexivity|]. intros v n H. injection H as _ <-. lia.
  Qed.
  Lemma decode_quote q q' b : decode_utf8 (b ++ k :: q) = decode_utf8 (b ++ k :: q') /\
    forall v n, decode_utf8 (b ++ k :: q) = Ok (v, n) -> (1 <= n <= S (length b))%nat.
  Proof.
    assert (X : nocont k /\ (k <? 128) = true) by (destruct K as [-> | ->]; split; reflexivity). destruct X as [X1 X2].
    destruct b as [|y b].
    - cbn [app]. unfold decode_utf8. rewrite X2. split; [reflexivity|]. intros v n H. injection H as _ <-. cbn [length]. lia.
    - cbn [app length]. destruct (decode_local k k q q' y b X1 X1) as [A B]. split; [exact A|]. intros v n H. specialize (B v n H). lia.
  Qed.
  Lemma units_local e q q' f : forall n room b, (n <= length b)%nat -> read_units e f n room (b ++ k :: q) = read_units e f n room (b ++ k :: q').
  Proof.
    induction f as [|f IH]; intros n room b L; [reflexivity|].
    destruct n as [|n]; [reflexivity|]. destruct b as [|y b]; [cbn [length] in L; lia|].
    cbn [read_units app].
    assert (G : forall u, (1 <= snd u <= S (S (length b)))%nat ->
      (if (length (fst u) <=? room)%nat then do l <- read_units e f (S n - snd u) (room - length (fst u)) (skipn (snd u) (y :: b ++ k :: q)); Ok (fst u ++ l) else UB) =
      (if (length (fst u) <=? room)%nat then do l <- read_units e f (S n - snd u) (room - length (fst u)) (skipn (snd u) (y :: b ++ k :: q')); Ok (fst u ++ l) else UB)).
    { intros u U. destruct (length (fst u) <=? room)%nat; [|reflexivity].
      destruct (Nat.le_gt_cases (snd u) (S (length b))) as [LE|GT].
      - change (y :: b ++ k :: q) with ((y :: b) ++ k :: q). change (y :: b ++ k :: q') with ((y :: b) ++ k :: q').
        rewrite !skipn_pre by (cbn [length]; lia). rewrite IH; [reflexivity|]. rewrite skipn_length. cbn [length] in *. lia.
      - cbn [length] in L. replace (S n - snd u)%nat with 0%nat by lia. destruct f; reflexivity. }
    destruct (y =? 92).
    - destruct (escape_local q q' b) as [A B]. rewrite <- A.
      destruct (read_escaped_char (b ++ k :: q)) as [[v m]| |]; cbn [bind]; try reflexivity.
      apply G. cbn [snd]. specialize (B v m eq_refl). lia.
    - destruct e; cbn [str_units].
      + cbn [bind]. apply G. cbn [snd]. lia.
      + destruct (decode_quote q q' (y :: b)) as [A B]. cbn [app] in A, B. rewrite <- A.
        destruct (decode_utf8 (y :: b ++ k :: q)) as [[v m]| |]; cbn [bind]; try reflexivity.
        apply G. cbn [snd]. specialize (B v m eq_refl). cbn [length] in B. lia.
      + destruct (decode_quote q q' (y :: b)) as [A B]. cbn [app] in A, B. rewrite <- A.
        destruct (decode_utf8 (y :: b ++ k :: q)) as [[v m]| |]; cbn [bind]; try reflexivity.
        apply G. cbn [snd]. specialize (B v m eq_refl). cbn [length] in B. lia.
  Qed.
End Quote.

Lemma split_at {A} (t q : list A) a b : t ++ q = a ++ b -> length t = length a -> t = a /\ q = b.
Proof.
  revert a. induction t as [|y t IH]; intros [|z a] H L; cbn [length app] in *; try lia; [auto|].
  injection H as -> H. destruct (IH a H ltac:(lia)) as [-> ->]. auto.
Qed.

Lemma string_local e n t q q' us : (n < length t)%nat -> read_string_literal e n (t ++ q) = Ok (us, length t) -> read_string_literal e n (t ++ q') = Ok (us, length t).
Proof.
  intros L H. unfold read_string_literal in *.
  rewrite skipn_pre in H by lia. rewrite skipn_pre by lia.
  ob H. destruct (string_end_local _ _ E) as [b [w [B [LB Q]]]].
  ob H. injection H as -> LT.
  assert (BB : skipn (S n) t ++ q = (b ++ [34]) ++ w) by (rewrite <- app_assoc; exact B).
  apply split_at in BB; [|rewrite skipn_length, app_length; cbn [length]; lia]. destruct BB as [T ->].
  rewrite T in E0 |- *. rewrite <- !app_assoc in E0 |- *. cbn [app] in E0 |- *.
  rewrite Q. cbn [bind]. rewrite (units_local 34 (or_introl eq_refl) e q' w) by lia. rewrite E0. cbn [bind]. rewrite LT. reflexivity.
Qed.

Lemma char_local n t q q' v : (n < length t)%nat -> read_char_literal n (t ++ q) = Ok (v, length t) -> read_char_literal n (t ++ q') = Ok (v, length t).
Proof.
  intros L H. unfold read_char_literal in *.
  rewrite skipn_pre in H by lia. rewrite skipn_pre by lia.
  destruct (skipn (S n) t ++ q) as [|y p] eqn:EP; [discriminate|].
  destruct (y =? 0) eqn:Y0; [discriminate|].
  ob H. destruct a as [u m]. cbn [fst snd] in H. ob H. injection H as -> LT.
  destruct (find_quote_local _ _ E0) as [b [w [B [LB Q]]]].
  assert (LM : (m < length (y :: p))%nat).
  { destruct (Nat.le_gt_cases (length (y :: p)) m) as [LE|G]; [|exact G]. rewrite skipn_all2 in B by exact LE. destruct b; discriminate. }
  assert (BB : skipn (S n) t ++ q = (firstn m (y :: p) ++ b ++ [39]) ++ w).
  { rewrite EP, <- !app_assoc. cbn [app]. rewrite <- B. symmetry. apply firstn_skipn. }
  apply split_at in BB; [|rewrite skipn_length, !app_length, firstn_length; cbn [length] in *; lia]. destruct BB as [T ->].
  set (one := firstn m (y :: p)) in *.
  assert (L1 : length one = m) by (unfold one; rewrite firstn_length; lia).
  assert (P : y :: p = (one ++ b) ++ 39 :: w) by (rewrite <- EP, T, <- !app_assoc; reflexivity).
  assert (P' : (one ++ b ++ [39]) ++ q' = (one ++ b) ++ 39 :: q') by (rewrite <- !app_assoc; reflexivity).
  rewrite T, P'.
  assert (F : find_quote (skipn m ((one ++ b) ++ 39 :: q')) = Ok a).
  { rewrite <- app_assoc, skipn_pre by lia. rewrite skipn_all2 by lia. apply Q. }
  assert (K : 39 = 34 \/ 39 = 39) by (right; reflexivity).
  destruct ((one ++ b) ++ 39 :: q') as [|y' p'] eqn:EQ; [destruct (one ++ b); discriminate|].
  assert (Y : y' = y /\ forall x, y = 92 -> read_escaped_char p = Ok x -> read_escaped_char p' = Ok x).
  { destruct (one ++ b) as [|z ob] eqn:OB; cbn [app] in P, EQ.
    - injection P as -> ->. injection EQ as <- <-. split; [reflexivity|]. intros x X. discriminate X.
    - injection P as -> ->. injection EQ as <- <-. split; [reflexivity|]. intros x _ X.
      rewrite <- X. symmetry. apply (escape_local 39 K w q' ob). }
  destruct Y as [-> Y]. rewrite Y0.
  assert (D : decode_utf8 (y :: p') = decode_utf8 (y :: p)) by (rewrite P, <- EQ; symmetry; apply (decode_quote 39 K w q' (one ++ b))).
  rewrite D.
  assert (EE : (if y =? 92 then do x <- read_escaped_char p'; Ok (fst x, S (snd x)) else do x <- decode_utf8 (y :: p); Ok (sext 32 (fst x), snd x)) = Ok (v, m)).
  { rewrite <- E. destruct (y =? 92) eqn:Y9; [|reflexivity]. ob E. rewrite (Y a0 ltac:(lia) eq_refl). reflexivity. }
  rewrite EE. cbn [bind fst snd]. rewrite F. cbn [bind]. rewrite LT. reflexivity.
Qed.

(** The first token of a text *)
Lemma nth2_app q c r d r' (k : Z) : q <> [] -> gapch c -> stopch d -> k <> 47 -> 32 < k -> (nth2 (q ++ c :: r) =? k) = (nth2 (q ++ d :: r') =? k).
Proof.
  intros N GC SD NK K. destruct q as [|y [|z q]]; [congruence| |reflexivity]. unfold nth2. cbn [app nth].
  replace (c =? k) with false by (symmetry; unfold gapch in GC; lia). symmetry. unfold stopch in SD. lia.
Qed.
Theorem relex o t x c r d r' k : t <> [] -> gapch c -> stopch d -> r' <> [] ->
  lex_step o (t ++ x ++ c :: r) = Ok (Tok k (length t)) -> lex_step o (t ++ x ++ d :: r') = Ok (Tok k (length t)).
Proof.
  intros NT GC SD NR H. set (q := t ++ x).
  assert (NQ : q <> []) by (unfold q; destruct t; [congruence|discriminate]).
  assert (Q1 : t ++ x ++ c :: r = q ++ c :: r) by apply app_assoc.
  assert (Q2 : t ++ x ++ d :: r' = q ++ d :: r') by apply app_assoc.
  destruct t as [|y t0] eqn:ET; [congruence|]. clear NT.
  set (P1 := (y :: t0) ++ x ++ c :: r) in *. set (P2 := (y :: t0) ++ x ++ d :: r') in *.
  assert (S1 : exists p1, P1 = y :: p1) by (eexists; reflexivity).
  assert (S2 : exists p2, P2 = y :: p2) by (eexists; reflexivity).
  assert (N2 : forall k, k <> 47 -> 32 < k -> (nth2 P2 =? k) = (nth2 P1 =? k)).
  { intros k0 K1 K2. rewrite Q1, Q2. symmetry. apply nth2_app; assumption. }
  assert (RP : read_punct o P2 = read_punct o P1).
  { rewrite Q1, Q2. symmetry. apply read_punct_local; assumption. }
  assert (DG : Isdigit (if y =? 46 then nth2 P2 else y) = Isdigit (if y =? 46 then nth2 P1 else y)).
  { destruct (y =? 46); [|reflexivity]. rewrite Q1, Q2. destruct q as [|a [|b q]]; [congruence| |reflexivity]. unfold nth2. cbn [app nth].
    destruct (gap_plain c GC) as [_ [_ [_ [_ [_ [_ [_ [_ [-> _]]]]]]]]]. destruct (gap_plain d (stop_gap d SD)) as [_ [_ [_ [_ [_ [_ [_ [_ [-> _]]]]]]]]]. reflexivity. }
  assert (C3 : (y =? 117) && (nth2 P2 =? 56) && (nth3 P2 =? 34) = (y =? 117) && (nth2 P1 =? 56) && (nth3 P1 =? 34)).
  { rewrite N2 by lia. destruct (nth2 P1 =? 56) eqn:E56; [|rewrite !andb_false_r; reflexivity]. rewrite Q1 in E56. rewrite Q1, Q2.
    destruct q as [|a [|b [|e q]]]; [congruence| | |reflexivity].
    - unfold nth2 in E56. cbn [app nth] in E56. unfold gapch in GC. lia.
    - unfold nth3. cbn [app nth]. replace (c =? 34) with false by (symmetry; unfold gapch in GC; lia). replace (d =? 34) with false by (symmetry; unfold stopch in SD; lia). reflexivity. }
  assert (CM : (y =? 47) && (nth2 P2 =? 47) = true -> (y =? 47) && (nth2 P1 =? 47) = true).
  { rewrite Q1, Q2. destruct q as [|a [|b q]]; [congruence| |exact (fun h => h)]. unfold nth2. cbn [app nth]. unfold stopch in SD. lia. }
  destruct S1 as [p1 E1]. destruct S2 as [p2 E2].
  assert (LS : forall e n us, (n < length (y :: t0))%nat -> read_string_literal e n P1 = Ok (us, length (y :: t0)) -> read_string_literal e n P2 = Ok (us, length (y :: t0))) by (intros; eapply string_local; eassumption).
  assert (LC : forall n v, (n < length (y :: t0))%nat -> read_char_literal n P1 = Ok (v, length (y :: t0)) -> read_char_literal n P2 = Ok (v, length (y :: t0))) by (intros; eapply char_local; eassumption).
  assert (LI : read_ident o (length P1) true P1 = Ok (length (y :: t0)) -> read_ident o (length P2) true P2 = Ok (length (y :: t0))).
  { intros R. unfold P2. apply (read_ident_local o c d r r' GC SD (length P1) (y :: t0) x true); [exact R|]. rewrite !app_length. cbn [length]. lia. }
  assert (LP : forall j n, (j <= length (y :: t0))%nat -> (j + n = length (y :: t0))%nat -> pp_number o (length P1) (skipn j P1) = Ok n -> pp_number o (length P2) (skipn j P2) = Ok n).
  { intros j n J1 J2 R. unfold P1 in R at 2. unfold P2 at 2. rewrite skipn_pre in R by exact J1. rewrite skipn_pre by exact J1.
    assert (N : n = length (skipn j (y :: t0))) by (rewrite skipn_length; lia). rewrite N in R |- *.
    apply (pp_number_local o c d r r' GC SD NR (length P1)); [exact R|]. unfold P2. rewrite skipn_length, !app_length. cbn [length]. lia. }
  set (T := length (y :: t0)) in *. clearbody P1 P2. clear Q1 Q2. unfold lex_step in *. rewrite E1 in H. rewrite E2. rewrite <- E1 in H. rewrite <- E2.
  destruct (y =? 10); [discriminate|].
  destruct (existsb (Z.eqb y) [32; 9; 11; 12]); [ob H; discriminate|].
  destruct ((y =? 47) && (nth2 P1 =? 47)); [ob H; discriminate|].
  destruct ((y =? 47) && (nth2 P2 =? 47)); [specialize (CM eq_refl); discriminate|].
  rewrite (N2 42) by lia.
  destruct ((y =? 47) && (nth2 P1 =? 42)); [ob H; discriminate|].
  rewrite DG. destruct (Isdigit (if y =? 46 then nth2 P1 else y)).
  { ob H. injection H as <- N. rewrite (LP _ a); [cbn [bind]; rewrite N; reflexivity|lia|exact N|exact E]. }
  rewrite RP. ob H. cbn [bind]. destruct (negb (Nat.eqb a 0)); [exact H|].
  assert (GS : forall e n (F : list Z -> tkind), (do q0 <- read_string_literal e n P1; Ok (Tok (F (fst q0)) (snd q0))) = Ok (Tok k T) -> (n < T)%nat ->
    (do q0 <- read_string_literal e n P2; Ok (Tok (F (fst q0)) (snd q0))) = Ok (Tok k T)).
  { intros e n F R L. ob R. destruct a0 as [us m]. cbn [fst snd] in R. injection R as <- ->. rewrite (LS e n us L E0). reflexivity. }
  assert (GSC : forall n (F : Z -> tkind), (do q0 <- read_char_literal n P1; Ok (Tok (F (fst q0)) (snd q0))) = Ok (Tok k T) -> (n < T)%nat ->
    (do q0 <- read_char_literal n P2; Ok (Tok (F (fst q0)) (snd q0))) = Ok (Tok k T)).
  { intros n F R L. ob R. destruct a0 as [us m]. cbn [fst snd] in R. injection R as <- ->. rewrite (LC n us L E0). reflexivity. }
  assert (PS : forall e n (F : list Z -> tkind), (do q0 <- read_string_literal e n P1; Ok (Tok (F (fst q0)) (snd q0))) = Ok (Tok k T) -> (n < T)%nat).
  { intros e n F R. unfold read_string_literal in R. destruct (string_literal_end (skipn (S n) P1)); cbn [bind] in R; [|discriminate R|discriminate R].
    destruct (read_units e (S a0) a0 match e with E16 => (a0 + n)%nat | _ => a0 end (skipn (S n) P1)); cbn [bind fst snd] in R; [|discriminate R|discriminate R].
    injection R as _ R. lia. }
  assert (PC : forall n (F : Z -> tkind), (do q0 <- read_char_literal n P1; Ok (Tok (F (fst q0)) (snd q0))) = Ok (Tok k T) -> (n < T)%nat).
  { intros n F R. unfold read_char_literal in R. destruct (skipn (S n) P1) as [|y0 l0]; [discriminate|]. destruct (y0 =? 0); [discriminate|].
    ob R. ob E0. cbn [fst snd] in E0. ob E0. injection E0 as <-. cbn [fst snd] in R. injection R as _ R. lia. }
  rewrite C3, !N2 by lia.
  destruct (y =? 34). { apply (GS E8 0%nat (TK_STR E8)); [exact H|exact (PS E8 0%nat (TK_STR E8) H)]. }
  destruct ((y =? 117) && (nth2 P1 =? 56) && (nth3 P1 =? 34)). { apply (GS E8 2%nat (TK_STR E8)); [exact H|exact (PS E8 2%nat (TK_STR E8) H)]. }
  destruct ((y =? 117) && (nth2 P1 =? 34)). { apply (GS E16 1%nat (TK_STR E16)); [exact H|exact (PS E16 1%nat (TK_STR E16) H)]. }
  destruct ((y =? 76) && (nth2 P1 =? 34)). { apply (GS E32 1%nat (TK_STR E32)); [exact H|exact (PS E32 1%nat (TK_STR E32) H)]. }
  destruct ((y =? 85) && (nth2 P1 =? 34)). { apply (GS E32 1%nat (TK_STR E32)); [exact H|exact (PS E32 1%nat (TK_STR E32) H)]. }
  destruct (y =? 39). { apply (GSC 0%nat (fun v => TK_CHAR ty_int (sext 8 v))); [exact H|exact (PC 0%nat (fun v => TK_CHAR ty_int (sext 8 v)) H)]. }
  destruct ((y =? 117) && (nth2 P1 =? 39)). { apply (GSC 1%nat (fun v => TK_CHAR ty_ushort (v mod 65536))); [exact H|exact (PC 1%nat (fun v => TK_CHAR ty_ushort (v mod 65536)) H)]. }
  destruct ((y =? 76) && (nth2 P1 =? 39)). { apply (GSC 1%nat (TK_CHAR ty_int)); [exact H|exact (PC 1%nat (TK_CHAR ty_int) H)]. }
  destruct ((y =? 85) && (nth2 P1 =? 39)). { apply (GSC 1%nat (TK_CHAR ty_uint)); [exact H|exact (PC 1%nat (TK_CHAR ty_uint) H)]. }
  ob H. destruct (Nat.eqb a0 0) eqn:A0; [discriminate|]. injection H as <- ->.
  rewrite (LI eq_refl). cbn [bind]. rewrite A0. reflexivity.
Qed.
