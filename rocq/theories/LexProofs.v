(** C09, C51: the tokens are those of the lexical grammar. *)
From Coq Require Import Ascii String ZArith List Bool Lia.
From Verif Require Import Base IntModel UnicodeTables UnicodeModel UnicodeSpec UnicodeProofs LexSpec LexModel LexSafe.
Import ListNotations.
Local Open Scope Z_scope.

(** *** Punctuators *)
Definition all_puncts (asm : bool) : list (list Z) := puncts ++ stray ++ (if asm then [[36]] else []).
Definition puncts_c : list (list Z) := Eval vm_compute in puncts ++ stray.
Lemma puncts_c_eq asm : all_puncts asm = puncts_c ++ (if asm then [[36]] else []).
Proof. unfold all_puncts. rewrite app_assoc. f_equal. Qed.

(** Length of the longest member that is a prefix, by search. *)
Fixpoint longest (l : list (list Z)) (p : list Z) : nat :=
  match l with
  | [] => 0
  | a :: l' => if is_prefix a p then Nat.max (length a) (longest l' p) else longest l' p
  end.
Lemma longest_le l p a : In a l -> is_prefix a p = true -> (length a <= longest l p)%nat.
Proof.
  induction l as [|b l IH]; intros H E; [destruct H|]. cbn [longest]. destruct H as [->|H]; [rewrite E; lia|].
  specialize (IH H E). destruct (is_prefix b p); lia.
Qed.
Lemma longest_in l p : (0 < longest l p)%nat -> exists a, In a l /\ is_prefix a p = true /\ length a = longest l p.
Proof.
  induction l as [|b l IH]; cbn [longest]; intros H; [lia|]. destruct (is_prefix b p) eqn:E.
  - destruct (Nat.max_spec (length b) (longest l p)) as [[L ->]|[L ->]].
    + destruct IH as [a [A1 [A2 A3]]]; [lia|]. exists a. split; [right|]; auto.
    + exists b. split; [left|]; auto.
  - destruct (IH H) as [a [A1 A2]]. exists a. split; [right|]; auto.
Qed.
Lemma longest_match_ok l p n : longest l p = n -> (0 < n)%nat -> longest_match l p n.
Proof. intros <- H. split; [apply longest_in; exact H|apply longest_le]. Qed.
Lemma longest_none l p : longest l p = 0%nat -> (forall a, In a l -> a <> []) -> no_match l p.
Proof.
  intros H N a A. destruct (is_prefix a p) eqn:E; [|reflexivity]. pose proof (longest_le l p a A E). specialize (N a A).
  destruct a; [congruence|]. cbn [length] in *. lia.
Qed.

Lemma prefix_one c x a p : is_prefix (c :: a) (x :: p) = (x =? c) && is_prefix a p.
Proof. reflexivity. Qed.
Lemma longest_skip l c p : (forall a, In a l -> match a with x :: _ => (c =? x) = false | [] => False end) -> longest l (c :: p) = 0%nat.
Proof.
  induction l as [|a l IH]; intros H; [reflexivity|]. cbn [longest]. pose proof (H a (or_introl eq_refl)) as Ha. destruct a as [|x a]; [destruct Ha|].
  rewrite prefix_one, Ha. cbn [andb]. apply IH. intros b B. apply H. right. exact B.
Qed.
Lemma longest_app l m p : longest (l ++ m) p = Nat.max (longest l p) (longest m p).
Proof. induction l as [|a l IH]; [reflexivity|]. cbn [app longest]. rewrite IH. destruct (is_prefix a p); lia. Qed.

Definition firsts : list Z := [40; 41; 44; 58; 59; 63; 64; 91; 92; 93; 96; 123; 125; 126; 45; 38; 43; 61; 124; 60; 62; 33; 37; 42; 47; 94; 35; 46].
Lemma not_first c : ~ In c firsts -> forall p, longest puncts_c (c :: p) = 0%nat.
Proof.
  intros N p. apply longest_skip. intros a A.
  assert (F : Forall (fun a => match a with x :: _ => existsb (Z.eqb x) firsts = true | [] => False end) puncts_c).
  { unfold puncts_c. repeat (constructor; [reflexivity|]). constructor. }
  rewrite Forall_forall in F. specialize (F a A). destruct a as [|x a]; [exact F|]. apply existsb_exists in F. destruct F as [y [Y1 Y2]].
  apply Z.eqb_eq in Y2. subst y. apply Z.eqb_neq. intros ->. exact (N Y1).
Qed.

Lemma eqb_sym (a b : Z) : (a =? b) = (b =? a).
Proof. apply Z.eqb_sym. Qed.

Lemma read_punct_longest o c d r n : read_punct o (c :: d :: r) = Ok n -> n = longest (all_puncts (asm_pp o)) (c :: d :: r).
Proof.
  rewrite puncts_c_eq, longest_app. intros H.
  assert (D36 : c <> 36 -> longest (if asm_pp o then [[36]] else []) (c :: d :: r) = 0%nat).
  { intros X. destruct (asm_pp o); [|reflexivity]. cbn [longest is_prefix]. apply Z.eqb_neq in X. rewrite X. reflexivity. }
  destruct (in_dec Z.eq_dec c firsts) as [F|F].
  - rewrite D36 by (intros ->; cbn in F; lia). rewrite Nat.max_0_r.
    cbn [firsts In] in F.
    repeat (destruct F as [<-|F];
      [cbn [read_punct Z.eqb Pos.eqb existsb orb andb] in H; unfold puncts_c; cbn [longest is_prefix Z.eqb Pos.eqb andb length]|]);
      [..|destruct F];
      repeat match type of H with
        | context [d =? ?x] => let E := fresh "E" in destruct (Z.eqb_spec d x) as [E|E]; [subst d|try (apply Z.eqb_neq in E; rewrite ?E)]; cbn [Z.eqb Pos.eqb andb orb] in *
        end.
    all: try (injection H as <-; reflexivity).
    all: try (destruct r as [|e r]; [discriminate H|]; cbn [is_prefix andb] in *;
              repeat match type of H with context [e =? ?x] => destruct (Z.eqb_spec e x); [subst e|] end; injection H as <-; reflexivity).
  - rewrite (not_first c F), Nat.max_0_l.
    cbn [firsts In] in F. repeat (apply Decidable.not_or in F; destruct F as [? F]).
    assert (X : forall x, x <> c -> (c =? x) = false) by (intros x Hx; apply Z.eqb_neq; congruence).
    cbn [read_punct existsb] in H. rewrite !X in H by assumption. cbn [andb orb] in H.
    destruct (Z.eqb_spec c 36) as [->|N].
    + cbn in H. inversion H. destruct (asm_pp o); reflexivity.
    + rewrite !X in H by assumption. cbn [orb] in H. rewrite D36 by exact N. congruence.
Qed.

Lemma all_puncts_nonempty asm a : In a (all_puncts asm) -> a <> [].
Proof.
  rewrite puncts_c_eq. intros H ->. apply in_app_or in H. destruct H as [H|H].
  - unfold puncts_c in H. cbn [In] in H. repeat (destruct H as [H|H]; [discriminate|]). exact H.
  - destruct asm; [destruct H as [H|[]]; discriminate|destruct H].
Qed.

(** C09 *)
Theorem punct_maximal o p n : (2 <= length p)%nat -> read_punct o p = Ok n ->
  (n = 0%nat -> no_match (all_puncts (asm_pp o)) p) /\ ((0 < n)%nat -> longest_match (all_puncts (asm_pp o)) p n).
Proof.
  intros L H. destruct p as [|c [|d r]]; cbn [length] in L; try lia. pose proof (read_punct_longest o c d r n H) as E. split.
  - intros ->. apply longest_none; [symmetry; exact E|apply all_puncts_nonempty].
  - apply longest_match_ok. symmetry. exact E.
Qed.

(** *** Characters *)
Lemma alnum_spec c : 0 <= c < 256 -> Isalnum c = letter c || digit c.
Proof.
  intros H. unfold Isalnum, letter, digit, Isdigit, Inrange, low.
  assert (K : forallb (fun k => let c := Z.of_nat k in
     Bool.eqb ((97 <=? Z.lor c 32) && (Z.lor c 32 <=? 122) || (48 <=? c) && (c <=? 57))
              (((65 <=? c) && (c <=? 90)) || ((97 <=? c) && (c <=? 122)) || (48 <=? c) && (c <=? 57))) (seq 0 256) = true) by (vm_compute; reflexivity).
  rewrite forallb_forall in K. specialize (K (Z.to_nat c)). cbv beta zeta in K. rewrite Z2Nat.id in K by lia. apply eqb_prop, K, in_seq. lia.
Qed.
Lemma xdigit_spec c : 0 <= c < 256 -> Isxdigit c = hexdigit c /\ (hexdigit c = true -> from_hex c = hexval c).
Proof.
  intros H.
  assert (K : forallb (fun k => let c := Z.of_nat k in
     Bool.eqb (Isxdigit c) (hexdigit c) && (negb (hexdigit c) || (from_hex c =? hexval c))) (seq 0 256) = true) by (vm_compute; reflexivity).
  rewrite forallb_forall in K. specialize (K (Z.to_nat c)). cbv beta zeta in K. rewrite Z2Nat.id in K by lia.
  specialize (K ltac:(apply in_seq; lia)). apply andb_true_iff in K. destruct K as [K1 K2]. split; [apply eqb_prop; exact K1|].
  intros E. rewrite E in K2. apply Z.eqb_eq. exact K2.
Qed.

Lemma wide_head ch u : wide_char ch u -> exists c r, ch = c :: r /\ 192 <= c.
Proof. intros []; eauto with zarith. Qed.

Lemma cont_iff b : cont b <-> Z.shiftr b 6 =? MASK2 1 1 = true.
Proof. rewrite Z.eqb_eq, shr6. change (MASK2 1 1) with 2. unfold cont. split; intros H; [|pose proof (Z.div_mod b 64); pose proof (Z.mod_pos_bound b 64); lia].
  symmetry. apply Z.div_unique with (b - 128); lia. Qed.
Lemma land_cont b : cont b -> Z.land b (MASK 6) = b - 128.
Proof. intros H. change (MASK 6) with 63. rewrite land63. unfold cont in H. symmetry. apply Z.mod_unique_pos with 2; lia. Qed.
Lemma step_cont a b : cont b -> 0 <= a < 1048576 -> Z.lor (Z.shiftl a 6 mod two32) (Z.land b (MASK 6)) = a * 64 + (b - 128).
Proof.
  intros C A. rewrite (land_cont b C), shl6. rewrite Z.mod_small by (unfold two32; lia). unfold cont in C. apply lor_mul64. lia.
Qed.

Lemma decode_wide ch u r : wide_char ch u -> decode_utf8 (ch ++ r) = Ok (u, length ch).
Proof.
  assert (M : MASK2 4 4 = 240 /\ MASK2 3 5 = 224 /\ MASK2 2 6 = 192 /\ MASK 3 = 7 /\ MASK 4 = 15 /\ MASK 5 = 31) by (repeat split).
  destruct M as [M1 [M2 [M3 [M4 [M5 M6]]]]].
  intros [a b A B|a b c A B C|a b c d A B C D]; cbn [app decode_utf8 length]; rewrite M1, M2, M3, M4, M5, M6.
  - destruct (Z.ltb_spec a 128); [lia|]. destruct (Z.leb_spec 240 a); [lia|]. destruct (Z.leb_spec 224 a); [lia|]. destruct (Z.leb_spec 192 a); [|lia].
    cbn [bind fst snd Nat.sub decode_tail]. rewrite (proj1 (cont_iff b) B), land31. replace (a mod 32) with (a - 192) by (apply Z.mod_unique_pos with 6; lia).
    rewrite step_cont by (auto; lia). reflexivity.
  - destruct (Z.ltb_spec a 128); [lia|]. destruct (Z.leb_spec 240 a); [lia|]. destruct (Z.leb_spec 224 a); [|lia].
    cbn [bind fst snd Nat.sub decode_tail]. rewrite (proj1 (cont_iff b) B), (proj1 (cont_iff c) C), land15. replace (a mod 16) with (a - 224) by (apply Z.mod_unique_pos with 14; lia).
    rewrite (step_cont (a - 224) b) by (auto; lia). pose proof B as B'. unfold cont in B'. rewrite step_cont by (auto; lia). reflexivity.
  - destruct (Z.ltb_spec a 128); [lia|]. destruct (Z.leb_spec 240 a); [|lia].
    cbn [bind fst snd Nat.sub decode_tail]. rewrite (proj1 (cont_iff b) B), (proj1 (cont_iff c) C), (proj1 (cont_iff d) D), land7.
    replace (a mod 8) with ((a - 240) mod 8) by (replace (a - 240) with (a + (-30) * 8) by lia; apply Z.mod_add; lia).
    pose proof (Z.mod_pos_bound (a - 240) 8). pose proof B as B'. pose proof C as C'. unfold cont in B', C'.
    rewrite (step_cont ((a - 240) mod 8) b) by (auto; lia). rewrite (step_cont _ c) by (auto; lia). rewrite step_cont by (auto; lia). reflexivity.
Qed.

Lemma decode_wide_inv c r u n : 128 <= c -> decode_utf8 (c :: r) = Ok (u, n) -> exists ch r', c :: r = ch ++ r' /\ wide_char ch u /\ n = length ch.
Proof.
  assert (M : MASK2 4 4 = 240 /\ MASK2 3 5 = 224 /\ MASK2 2 6 = 192) by (repeat split). destruct M as [M1 [M2 M3]].
  intros A H. pose proof H as H0. cbn [decode_utf8] in H. destruct (Z.ltb_spec c 128); [lia|]. rewrite M1, M2, M3 in H.
  assert (FIN : forall ch r', c :: r = ch ++ r' -> (exists v, wide_char ch v) -> exists ch r', c :: r = ch ++ r' /\ wide_char ch u /\ n = length ch).
  { intros ch r' E [v V]. exists ch, r'. rewrite E, (decode_wide _ _ r' V) in H0. injection H0 as -> <-. auto. }
  assert (T : forall k w p z, decode_tail (S k) w p = Ok z -> exists b p' w', p = b :: p' /\ cont b /\ decode_tail k w' p' = Ok z).
  { intros k w p z D. cbn [decode_tail] in D. destruct p as [|b p]; [discriminate|]. destruct (_ =? _) eqn:E; [|discriminate]. apply cont_iff in E. eauto 7. }
  destruct (Z.leb_spec 240 c).
  { cbn [bind fst snd Nat.sub] in H. destruct (decode_tail 3 _ r) as [z| |] eqn:D; try discriminate.
    destruct (T _ _ _ _ D) as [x1 [p1 [w1 [-> [C1 D1]]]]]. destruct (T _ _ _ _ D1) as [x2 [p2 [w2 [-> [C2 D2]]]]]. destruct (T _ _ _ _ D2) as [x3 [p3 [w3 [-> [C3 D3]]]]].
    apply (FIN [c; x1; x2; x3] p3); [reflexivity|]. eexists. constructor; auto. }
  destruct (Z.leb_spec 224 c).
  { cbn [bind fst snd Nat.sub] in H. destruct (decode_tail 2 _ r) as [z| |] eqn:D; try discriminate.
    destruct (T _ _ _ _ D) as [x1 [p1 [w1 [-> [C1 D1]]]]]. destruct (T _ _ _ _ D1) as [x2 [p2 [w2 [-> [C2 D2]]]]].
    apply (FIN [c; x1; x2] p2); [reflexivity|]. eexists. constructor; auto. }
  destruct (Z.leb_spec 192 c); [|discriminate].
  cbn [bind fst snd Nat.sub] in H. destruct (decode_tail 1 _ r) as [z| |] eqn:D; try discriminate.
  destruct (T _ _ _ _ D) as [x1 [p1 [w1 [-> [C1 D1]]]]].
  apply (FIN [c; x1] p1); [reflexivity|]. eexists. constructor; auto.
Qed.
Lemma decode_src c r u n : decode_utf8 (c :: r) = Ok (u, n) -> exists ch r', r = ch ++ r' /\ src_char (c :: ch) u /\ n = S (length ch).
Proof.
  intros H. destruct (Z_lt_le_dec c 128) as [L|L].
  - cbn [decode_utf8] in H. destruct (Z.ltb_spec c 128); [|lia]. injection H as <- <-. exists [], r. split; [reflexivity|]. split; [constructor; exact L|reflexivity].
  - destruct (decode_wide_inv c r u n L H) as [ch [r' [E [W ->]]]]. destruct ch as [|x ch]; [inversion W|]. injection E as -> ->.
    exists ch, r'. split; [reflexivity|]. split; [constructor; exact W|reflexivity].
Qed.

(** *** Identifiers *)
Definition bytes (p : list Z) : Prop := Forall (fun c => 0 <= c < 256) p.
Lemma bytes_skipn n p : bytes p -> bytes (skipn n p).
Proof. unfold bytes. rewrite !Forall_forall. intros H x X. apply H. rewrite <- (firstn_skipn n p). apply in_or_app. right. exact X. Qed.

Lemma id_ascii_eq o c : 0 <= c < 256 ->
  letter c || digit c || (c =? 95) || ((c =? 36) && negb (asm_pp o)) = if c =? 36 then negb (asm_pp o) else Isalnum c || (c =? 95).
Proof.
  intros H. rewrite (alnum_spec c H). destruct (Z.eqb_spec c 36) as [->|]; [destruct (asm_pp o); reflexivity|]. cbn [andb]. rewrite orb_false_r. reflexivity.
Qed.
Lemma id_ascii_wide c asm : 128 <= c < 256 -> letter c || digit c || (c =? 95) || ((c =? 36) && negb asm) = false.
Proof.
  intros H. unfold letter, digit.
  repeat match goal with |- context [?x <=? ?y] => destruct (Z.leb_spec x y); try lia | |- context [?x =? ?y] => destruct (Z.eqb_spec x y); try lia end; reflexivity.
Qed.

Lemma ident_table u (first : bool) : (if first then is_ident1 u else is_ident2 u) = true <-> in_table u ident1_table \/ (first = false /\ in_table u ident2_table).
Proof.
  destruct first; [rewrite is_ident1_ok|rewrite is_ident2_ok]; split; intros H; [left; exact H|destruct H as [H|[H _]]; [exact H|discriminate]| |].
  - destruct H; auto.
  - destruct H as [H|[_ H]]; auto.
Qed.

(** Whether an identifier character stands at [p], as the code decides it. *)
Definition id_at (o : lopt) (first : bool) (p : list Z) : outcome (option nat) :=
  match p with
  | [] => UB
  | c :: r =>
      if c =? 36 then Ok (if asm_pp o then None else Some 1%nat)
      else if Isalnum c || (c =? 95) then Ok (Some 1%nat)
      else if 128 <=? c then do q <- decode_utf8 p; Ok (if (if first then is_ident1 (fst q) else is_ident2 (fst q)) then Some (snd q) else None)
      else Ok None
  end.
Lemma id_at_ok o first p x : bytes p -> id_at o first p = Ok x ->
  match x with Some n => id_char (asm_pp o) first p n | None => forall n, ~ id_char (asm_pp o) first p n end.
Proof.
  intros B H. destruct p as [|c r]; [discriminate|]. inversion B as [|? ? Bc Br]; subst. cbn [id_at] in H.
  pose proof (id_ascii_eq o c Bc) as EA.
  assert (NONE : (forall ch u r', c :: r = ch ++ r' -> wide_char ch u -> in_table u ident1_table \/ (first = false /\ in_table u ident2_table) -> False) ->
                 letter c || digit c || (c =? 95) || ((c =? 36) && negb (asm_pp o)) = false -> forall n, ~ id_char (asm_pp o) first (c :: r) n).
  { intros W A n I. remember (c :: r) as p eqn:P. destruct I as [c' r' I|ch u r' I T]; [injection P as -> ->; congruence|]. eapply W; eauto. }
  assert (SMALL : c < 128 -> forall ch u r', c :: r = ch ++ r' -> wide_char ch u -> in_table u ident1_table \/ (first = false /\ in_table u ident2_table) -> False).
  { intros L ch u r' E W _. destruct (wide_head _ _ W) as [y [z [-> Y]]]. injection E as -> _. lia. }
  destruct (Z.eqb_spec c 36) as [->|C36].
  { injection H as <-. destruct (asm_pp o) eqn:O; [apply NONE; [apply SMALL; lia|reflexivity]|]. constructor. reflexivity. }
  destruct (Isalnum c || (c =? 95)) eqn:CA; [injection H as <-; constructor; rewrite (proj2 (Z.eqb_neq c 36) C36); exact EA|].
  destruct (Z.leb_spec 128 c); [|injection H as <-; apply NONE; [apply SMALL; lia|exact EA]].
  destruct (decode_utf8 (c :: r)) as [[u n]| |] eqn:D; cbn [bind fst snd] in H; try discriminate. injection H as <-.
  destruct (if first then is_ident1 u else is_ident2 u) eqn:T.
  - destruct (decode_wide_inv c r u n ltac:(lia) D) as [ch [r' [-> [W ->]]]]. apply idc_wide with u; [exact W|]. apply ident_table. exact T.
  - apply NONE; [|exact EA]. intros ch v r' E W I. rewrite E, (decode_wide _ _ r' W) in D. injection D as -> <-. apply ident_table in I. congruence.
Qed.

Lemma read_ident_id_at o f first p : read_ident o (S f) first p =
  do x <- id_at o first p; match x with Some k => do n <- read_ident o f false (skipn k p); Ok (k + n)%nat | None => Ok 0%nat end.
Proof.
  destruct p as [|c r]; [reflexivity|]. cbn [read_ident id_at]. destruct (c =? 36); [destruct (asm_pp o); reflexivity|].
  destruct (Isalnum c || (c =? 95)); [reflexivity|]. destruct (128 <=? c); [|reflexivity].
  destruct (decode_utf8 (c :: r)) as [[u n]| |]; cbn [bind fst snd]; try reflexivity. destruct (if first then is_ident1 u else is_ident2 u); reflexivity.
Qed.
Lemma read_ident_ids o f : forall first p n, bytes p -> read_ident o f first p = Ok n -> id_chars (asm_pp o) first p n.
Proof.
  induction f as [|f IH]; intros first p n B H; [discriminate|]. rewrite read_ident_id_at in H.
  destruct (id_at o first p) as [x| |] eqn:E; cbn [bind] in H; try discriminate. pose proof (id_at_ok o first p x B E) as I. destruct x as [k|].
  - destruct (read_ident o f false (skipn k p)) as [m| |] eqn:R; cbn [bind] in H; try discriminate. injection H as <-.
    apply ids_more; [exact I|]. apply IH; [apply bytes_skipn; exact B|exact R].
  - injection H as <-. apply ids_stop. exact I.
Qed.

(** *** Numbers *)
Definition num_at (o : lopt) (p : list Z) : outcome (option nat) :=
  match p with
  | [] => UB
  | c :: r =>
      if c =? 46 then Ok (Some 1%nat)
      else if c =? 39 then match r with [] => UB | d :: _ => if Isalnum d then Ok (Some 2%nat) else id_at o false p end
      else if c =? 0 then Ok None
      else match r with [] => UB | d :: _ => if existsb (Z.eqb c) [101; 69; 112; 80] && existsb (Z.eqb d) [43; 45] then Ok (Some 2%nat) else id_at o false p end
  end.
Lemma pp_number_num_at o f p : pp_number o (S f) p =
  do x <- num_at o p; match x with Some k => do n <- pp_number o f (skipn k p); Ok (k + n)%nat | None => Ok 0%nat end.
Proof.
  destruct p as [|c r]; [reflexivity|]. cbn [pp_number num_at id_at]. destruct (c =? 46); [reflexivity|].
  destruct (c =? 39).
  - destruct r as [|d r]; [reflexivity|]. destruct (Isalnum d); [reflexivity|].
    destruct (c =? 36); [destruct (asm_pp o); reflexivity|].
    destruct (Isalnum c || (c =? 95)); [reflexivity|]. destruct (128 <=? c); [|reflexivity].
    destruct (decode_utf8 (c :: d :: r)) as [[u n]| |]; cbn [bind fst snd]; try reflexivity. destruct (is_ident2 u); reflexivity.
  - destruct (c =? 0); [reflexivity|]. destruct r as [|d r]; [reflexivity|]. destruct (existsb (Z.eqb c) _ && _); [reflexivity|].
    destruct (c =? 36); [destruct (asm_pp o); reflexivity|].
    destruct (Isalnum c || (c =? 95)); [reflexivity|]. destruct (128 <=? c); [|reflexivity].
    destruct (decode_utf8 (c :: d :: r)) as [[u n]| |]; cbn [bind fst snd]; try reflexivity. destruct (is_ident2 u); reflexivity.
Qed.
Lemma existsb_In (c : Z) l : existsb (Z.eqb c) l = true <-> In c l.
Proof.
  rewrite existsb_exists. split; [intros [x [X E]]; apply Z.eqb_eq in E; subst; exact X|intros H; exists c; split; [exact H|apply Z.eqb_refl]].
Qed.
Lemma id_not c asm first r n : id_char asm first (c :: r) n -> c <> 46 /\ c <> 39 /\ c <> 0.
Proof.
  intros I. remember (c :: r) as p eqn:P. destruct I as [c' r' I|ch u r' I T].
  - injection P as -> ->. repeat split; intros ->; discriminate I.
  - destruct (wide_head _ _ I) as [y [z [-> Y]]]. injection P as -> _. lia.
Qed.
Lemma num_at_ok o p x : bytes p -> num_at o p = Ok x ->
  match x with Some n => num_piece (asm_pp o) p n | None => forall n, ~ num_piece (asm_pp o) p n end.
Proof.
  intros B H. destruct p as [|c r]; [discriminate|]. cbn [num_at] in H. inversion B as [|? ? Bc Br]; subst.
  destruct (Z.eqb_spec c 46) as [->|N46]; [injection H as <-; constructor|].
  assert (GEN : forall d r', r = d :: r' -> (c = 39 -> letter d || digit d = false) ->
     existsb (Z.eqb c) [101; 69; 112; 80] && existsb (Z.eqb d) [43; 45] = false -> id_at o false (c :: r) = Ok x ->
     match x with Some n => num_piece (asm_pp o) (c :: r) n | None => forall n, ~ num_piece (asm_pp o) (c :: r) n end).
  { intros d r' -> Hs He Hi. pose proof (id_at_ok o false _ x B Hi) as I.
    assert (NE : ~ (In c [101; 69; 112; 80] /\ In (hd 0 (d :: r')) [43; 45])).
    { intros [X Y]. cbn [hd] in Y. apply existsb_In in X, Y. rewrite X, Y in He. discriminate. }
    destruct x as [n|]; [apply num_id; [exact I|exact NE]|]. intros n P. inversion P; subst.
    - congruence.
    - rewrite Hs in *; congruence.
    - apply NE. split; assumption.
    - eapply I. eassumption. }
  destruct (Z.eqb_spec c 39) as [->|N39].
  - destruct r as [|d r]; [discriminate|]. inversion Br as [|? ? Bd Br']; subst. destruct (Isalnum d) eqn:A.
    + injection H as <-. apply num_sep. rewrite <- alnum_spec by exact Bd. exact A.
    + apply (GEN d r eq_refl); [intros _; rewrite <- alnum_spec by exact Bd; exact A|reflexivity|exact H].
  - destruct (Z.eqb_spec c 0) as [->|N0].
    + injection H as <-. intros n P. inversion P; subst; try congruence.
      * match goal with X : In 0 _ |- _ => cbn in X; lia end.
      * match goal with X : id_char _ _ _ _ |- _ => apply id_not in X; lia end.
    + destruct r as [|d r]; [discriminate|].
      destruct (existsb (Z.eqb c) [101; 69; 112; 80] && existsb (Z.eqb d) [43; 45]) eqn:E.
      * injection H as <-. apply andb_true_iff in E. destruct E as [E1 E2]. apply num_exp; apply existsb_In; assumption.
      * apply (GEN d r eq_refl); [congruence|exact E|exact H].
Qed.
Lemma pp_number_rest o f : forall p n, bytes p -> pp_number o f p = Ok n -> num_rest (asm_pp o) p n.
Proof.
  induction f as [|f IH]; intros p n B H; [discriminate|]. rewrite pp_number_num_at in H.
  destruct (num_at o p) as [x| |] eqn:E; cbn [bind] in H; try discriminate. pose proof (num_at_ok o p x B E) as I. destruct x as [k|].
  - destruct (pp_number o f (skipn k p)) as [m| |] eqn:R; cbn [bind] in H; try discriminate. injection H as <-.
    apply nums_more; [exact I|]. apply IH; [apply bytes_skipn; exact B|exact R].
  - injection H as <-. apply nums_stop. exact I.
Qed.
