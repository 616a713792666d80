(** Proofs about dependency output. *)
From Coq Require Import ZArith List Bool Lia Arith.
From Verif Require Import Base MakeSpec MakeModel.
Import ListNotations.
Local Open Scope Z_scope.

(** The quoted text of [s] after [k] backslashes. *)
Fixpoint quoted (k : nat) (s : list Z) : list Z :=
  match s with
  | [] => []
  | c :: r =>
      (if c =? 36 then [36; 36] else if c =? 35 then [BS; 35]
       else if (c =? 32) || (c =? 9) then bss k ++ [BS; c] else [c])
      ++ quoted (if c =? BS then S k else 0) r
  end.
Fixpoint trail (before : list Z) : nat :=
  match before with c :: r => if c =? BS then S (trail r) else O | [] => O end.

Lemma bss_snoc k : bss k ++ [BS] = BS :: bss k.
Proof. induction k as [|k IH]; [reflexivity|]. change (bss (S k)) with (BS :: bss k). cbn [app]. now rewrite IH. Qed.
Lemma put_ok cap buf c : (length buf < cap)%nat -> put cap buf c = Ok (buf ++ [c]).
Proof. intros H. unfold put. apply Nat.ltb_lt in H. now rewrite H. Qed.
Lemma put_slashes_ok cap before : forall buf, (length buf + trail before <= cap)%nat ->
  put_slashes cap before buf = Ok (buf ++ bss (trail before)).
Proof.
  induction before as [|c r IH]; intros buf H; cbn [put_slashes trail] in *; [now rewrite app_nil_r|].
  destruct (c =? BS); [|now rewrite app_nil_r]. rewrite put_ok by lia. cbn [bind].
  rewrite IH by (rewrite app_length; cbn; lia). f_equal. rewrite <- app_assoc. reflexivity.
Qed.
Lemma quote_loop_ok cap s : forall before buf,
  (length buf + trail before <= 2 * length before)%nat -> (2 * (length before + length s) < cap)%nat ->
  quote_loop cap before s buf = Ok (buf ++ quoted (trail before) s) /\
  (length (buf ++ quoted (trail before) s) <= 2 * (length before + length s))%nat.
Proof.
  induction s as [|c r IH]; intros before buf B C; cbn [quote_loop quoted].
  - rewrite app_nil_r. cbn in *. split; [reflexivity|lia].
  - cbn [length] in C.
    destruct (Z.eqb_spec c 36) as [->|N36].
    { rewrite put_ok by lia. cbn [bind]. rewrite put_ok by (rewrite app_length; cbn; lia). cbn [bind].
      destruct (IH (36 :: before) ((buf ++ [36]) ++ [36])) as [E L].
      { rewrite !app_length. cbn. lia. } { cbn [length] in *. lia. }
      rewrite E. change (36 =? BS) with false in *. cbn [trail] in *. change (36 =? BS) with false in *. cbn match in *.
      rewrite <- !app_assoc in *. cbn [app length] in *. split; [reflexivity|lia]. }
    destruct (Z.eqb_spec c 35) as [->|N35].
    { rewrite put_ok by lia. cbn [bind]. rewrite put_ok by (rewrite app_length; cbn; lia). cbn [bind].
      destruct (IH (35 :: before) ((buf ++ [BS]) ++ [35])) as [E L].
      { rewrite !app_length. cbn. lia. } { cbn [length] in *. lia. }
      rewrite E. cbn [trail] in *. change (35 =? BS) with false in *. cbn match in *.
      rewrite <- !app_assoc in *. cbn [app length] in *. split; [reflexivity|lia]. }
    destruct ((c =? 32) || (c =? 9)) eqn:BL.
    { rewrite put_slashes_ok by lia. cbn [bind].
      assert (LB : length (bss (trail before)) = trail before) by apply repeat_length.
      rewrite put_ok by (rewrite app_length; lia). cbn [bind].
      rewrite put_ok by (rewrite !app_length; cbn; lia). cbn [bind].
      assert (NB : (c =? BS) = false).
      { destruct (Z.eqb_spec c BS) as [->|]; [discriminate BL|reflexivity]. }
      destruct (IH (c :: before) (((buf ++ bss (trail before)) ++ [BS]) ++ [c])) as [E L].
      { rewrite !app_length. cbn [trail length]. rewrite NB. cbn. lia. } { cbn [length]. lia. }
      rewrite E. cbn [trail] in *. rewrite NB in *.
      rewrite <- !app_assoc in *. cbn [app length] in *. split; [reflexivity|lia]. }
    rewrite put_ok by lia. cbn [bind].
    destruct (IH (c :: before) (buf ++ [c])) as [E L].
    { rewrite !app_length. cbn [trail length]. destruct (c =? BS); lia. } { cbn [length]. lia. }
    rewrite E. cbn [trail] in *. rewrite <- !app_assoc in *. cbn [app length] in *.
    replace (if c =? BS then S (trail before) else 0%nat) with (if c =? BS then S (trail before) else O) by reflexivity.
    split; [reflexivity|lia].
Qed.
Theorem quote_ok s : quote_makefile s = Ok (quoted 0 s).
Proof.
  unfold quote_makefile. destruct (quote_loop_ok (length s * 2 + 1) s [] []) as [E L]; cbn [length trail] in *; [lia|lia|].
  rewrite E. cbn [bind app] in *. destruct (Nat.ltb_spec (length (quoted 0 s)) (length s * 2 + 1)); [reflexivity|lia].
Qed.

(** ** Reading back *)
Lemma word_bss n : forall k s, word k (bss n ++ s) = word (k + n) s.
Proof.
  induction n as [|n IH]; intros k s; [now rewrite Nat.add_0_r|]. change (bss (S n)) with (BS :: bss n).
  cbn [app word]. rewrite Z.eqb_refl, IH. f_equal. lia.
Qed.
Lemma bss_length_S k : bss (S k) = bss k ++ [BS].
Proof. symmetry. apply bss_snoc. Qed.
Lemma odd_2k1 k : Nat.odd (k + S k) = true /\ ((k + S k) / 2 = k)%nat.
Proof.
  replace (k + S k)%nat with (1 + 2 * k)%nat by lia. split.
  - rewrite Nat.odd_add_mul_2. reflexivity.
  - rewrite Nat.mul_comm, Nat.div_add by lia. reflexivity.
Qed.

Lemma quoted_word s : forall k rest, quotable (Nat.ltb 0 k) s ->
  word k (quoted k s ++ 58 :: rest) = Some (bss k ++ s, 58 :: rest).
Proof.
  induction s as [|c r IH]; intros k rest Q; cbn [quotable quoted] in *.
  - destruct k as [|k]; [reflexivity|discriminate Q].
  - destruct Q as (NC & NN & NZ & NH & Q).
    destruct (Z.eqb_spec c 36) as [->|N36].
    { specialize (IH 0%nat rest Q). change (36 =? BS) with false. cbn match. cbn [app word].
      change (36 =? BS) with false. change (special 36) with false. change (36 =? NL) with false. change (36 =? 36) with true.
      cbn match. rewrite IH. cbn [prepend]. now rewrite <- app_assoc. }
    destruct (Z.eqb_spec c 35) as [->|N35].
    { assert (k = O) by (destruct k; [reflexivity|exfalso; apply NH; reflexivity]). subst k.
      specialize (IH 0%nat rest Q). change (35 =? BS) with false. cbn match. cbn [app word].
      change (BS =? BS) with true. cbn match. change (35 =? BS) with false. change (special 35) with true. cbn match.
      change (Nat.odd 1) with true. cbn match. rewrite IH. reflexivity. }
    destruct ((c =? 32) || (c =? 9)) eqn:BL.
    { assert (NB : (c =? BS) = false) by (destruct (Z.eqb_spec c BS) as [->|]; [discriminate BL|reflexivity]).
      rewrite NB in *. specialize (IH 0%nat rest Q). rewrite <- !app_assoc. rewrite word_bss. cbn [app word].
      rewrite Z.eqb_refl, NB. replace (S (k + k)) with (k + S k)%nat by lia.
      assert (SP : special c = true) by (unfold special, blank; rewrite BL; reflexivity). rewrite SP.
      destruct (odd_2k1 k) as [-> ->]. rewrite IH. cbn [prepend]. now rewrite <- app_assoc. }
    destruct (Z.eqb_spec c BS) as [->|NB].
    { specialize (IH (S k) rest Q). cbn [app word]. rewrite Z.eqb_refl, IH. rewrite bss_length_S, <- app_assoc. reflexivity. }
    specialize (IH 0%nat rest Q). cbn [app word].
    destruct (Z.eqb_spec c BS); [congruence|].
    assert (SP : special c = false).
    { unfold special, blank. rewrite BL. destruct (Z.eqb_spec c 35); [congruence|]. destruct (Z.eqb_spec c 58); [congruence|]. reflexivity. }
    rewrite SP. destruct (Z.eqb_spec c NL); [congruence|]. destruct (Z.eqb_spec c 36); [congruence|].
    rewrite IH. cbn [prepend]. now rewrite <- app_assoc.
Qed.

Lemma unquoted_word s : unquoted s -> forall c rest, blank c = true \/ c = NL ->
  word 0 (s ++ c :: rest) = Some (s, c :: rest).
Proof.
  intros [_ F] c rest HC. induction F as [|a r (S1 & S2 & S3 & S4 & _) F IH]; cbn [app word].
  - destruct HC as [HC| ->]; [|reflexivity].
    assert (NB : (c =? BS) = false) by (destruct (Z.eqb_spec c BS) as [->|]; [discriminate HC|reflexivity]).
    assert (SP : special c = true) by (unfold special; rewrite HC; reflexivity). now rewrite NB, SP.
  - apply Z.eqb_neq in S2, S3, S4. rewrite S2, S1, S3, S4, IH. reflexivity.
Qed.

Lemma skip_blanks_not c r : blank c = false -> c <> BS -> skip_blanks (c :: r) = c :: r.
Proof. intros B N. cbn [skip_blanks]. rewrite B. apply Z.eqb_neq in N. now rewrite N. Qed.

Lemma printed_wanted MM f : printed MM f = wanted MM f.
Proof. unfold printed, wanted. destruct MM, (syshdr f), (is_input f); reflexivity. Qed.

Lemma prereqs_names MM l : prereqs MM l = flat_map (fun n => [32; BS; NL; 32; 32] ++ n) (names MM l).
Proof.
  induction l as [|f r IH]; cbn [prereqs]; [reflexivity|]. unfold names in *. cbn [filter].
  rewrite printed_wanted. destruct (wanted MM f); cbn [map flat_map]; rewrite IH; reflexivity.
Qed.

Lemma words_ok ns rest : Forall unquoted ns -> forall fuel, (length ns < fuel)%nat ->
  words fuel (flat_map (fun n => [32; BS; NL; 32; 32] ++ n) ns ++ NL :: rest) = Some (ns, rest).
Proof.
  induction 1 as [|n ns U F IH]; intros fuel L; (destruct fuel as [|fuel]; [cbn in L; lia|]); cbn [length] in L.
  - reflexivity.
  - cbn [flat_map]. rewrite <- !app_assoc. cbn [words]. cbn [app skip_blanks].
    change (blank 32) with true. change (blank BS) with false. change (BS =? BS) with true. change (NL =? NL) with true. cbn match.
    assert (NX : exists c t, flat_map (fun n0 => [32; BS; NL; 32; 32] ++ n0) ns ++ NL :: rest = c :: t /\ (blank c = true \/ c = NL)).
    { destruct ns as [|m ns]; cbn [flat_map app]; eauto. }
    destruct NX as (c & t & E & HC).
    pose proof (unquoted_word n U c t HC) as W. rewrite <- E in W.
    destruct U as [NE FU]. destruct n as [|a n]; [congruence|]. inversion FU as [|? ? (S1 & S2 & S3 & S4 & _) FU']; subst.
    assert (BA : blank a = false) by (unfold special in S1; destruct (blank a); auto; discriminate).
    assert (HA : (a =? 35) = false) by (unfold special in S1; destruct (a =? 35); auto; rewrite orb_true_r in S1; discriminate).
    cbn [app]. rewrite skip_blanks_not by auto. apply Z.eqb_neq in S3. rewrite S3, HA.
    cbn [app] in W. rewrite W. rewrite IH by lia. reflexivity.
Qed.

Lemma quoted_head s k : s <> [] -> quotable (Nat.ltb 0 k) s -> exists c t, quoted k s = c :: t /\ c <> NL.
Proof.
  destruct s as [|c r]; [congruence|]. intros _ (NC & NN & _ & NH & _). cbn [quoted].
  destruct (c =? 36); [exists 36; eexists; split; [reflexivity|discriminate]|].
  destruct (c =? 35); [exists BS; eexists; split; [reflexivity|discriminate]|].
  destruct ((c =? 32) || (c =? 9)); [|exists c; eexists; split; [reflexivity|auto]].
  destruct k as [|k]; [exists BS; eexists; split; [reflexivity|discriminate]|].
  exists BS. eexists. split; [reflexivity|discriminate].
Qed.

Lemma rule_step f t ns text : t <> [] -> quotable false t -> Forall unquoted ns -> (length ns < f)%nat ->
  rules (S f) (quoted 0 t ++ 58 :: flat_map (fun n => [32; BS; NL; 32; 32] ++ n) ns ++ NL :: text) =
  match rules f text with Some q => Some ((t, ns) :: q) | None => None end.
Proof.
  intros NE Q U L. destruct (quoted_head t 0 NE Q) as (c & r & E & N).
  pose proof (quoted_word t 0 (flat_map (fun n => [32; BS; NL; 32; 32] ++ n) ns ++ NL :: text) Q) as W.
  rewrite E in *. cbn [app rules]. apply Z.eqb_neq in N. rewrite N. cbn [app] in W. rewrite W. cbn [bss repeat app].
  change (58 =? 58) with true. cbn match. rewrite words_ok by auto. reflexivity.
Qed.
Lemma rules_nl f text : rules (S f) (NL :: text) = rules f text.
Proof. reflexivity. Qed.


Lemma phony_ok MM l : exists text, phony MM l = Ok text /\
  (Forall (fun f => wanted MM f = true -> dname f <> [] /\ quotable false (dname f)) l ->
   forall fuel, (2 * length l < fuel)%nat -> rules fuel text = Some (phony_rules MM l)).
Proof.
  induction l as [|f r (text & E & H)]; cbn [phony].
  - exists []. split; [reflexivity|]. intros _ fuel L. destruct fuel; [cbn in L; lia|reflexivity].
  - unfold phony_rules, names in *. cbn [filter]. rewrite printed_wanted. destruct (wanted MM f) eqn:P.
    + rewrite quote_ok. cbn [bind]. rewrite E. cbn [bind].
      eexists. split; [reflexivity|]. intros F fuel L. inversion F as [|? ? F1 F2]; subst. destruct (F1 P) as [NE Q].
      cbn [length] in L. destruct fuel as [|[|fuel]]; [lia|lia|].
      rewrite <- app_assoc. cbn [app]. pose proof (rule_step (S fuel) (dname f) [] (NL :: text) NE Q ltac:(constructor) ltac:(cbn; lia)) as R.
      cbn [flat_map app] in R. rewrite R, rules_nl. rewrite H by (auto; lia). reflexivity.
    + cbn [bind]. rewrite E. cbn [bind app]. exists text. split; [reflexivity|]. intros F fuel L. inversion F; subst.
      cbn [length] in L. apply H; auto. lia.
Qed.

Theorem dependencies_ok t MM MP l : t <> [] -> quotable false t ->
  Forall (fun f => wanted MM f = true -> unquoted (dname f)) l ->
  exists text, print_dependencies (Object t) MM MP l = Ok text /\
    forall fuel, (2 * length l + 2 < fuel)%nat ->
      rules fuel text = Some ((t, names MM l) :: if MP then phony_rules MM (tl l) else []).
Proof.
  intros NE Q U. unfold print_dependencies. rewrite quote_ok. cbn [bind].
  assert (UN : Forall unquoted (names MM l)).
  { unfold names. rewrite Forall_map. rewrite Forall_forall in *. intros f Hf. apply filter_In in Hf. destruct Hf. auto. }
  assert (LN : (length (names MM l) <= length l)%nat).
  { unfold names. rewrite map_length. clear. induction l; cbn [filter length]; [lia|]. destruct (wanted MM a); cbn [length]; lia. }
  assert (PH : exists p, (if MP then phony MM (tl l) else Ok []) = Ok p /\
    forall fuel, (2 * length l < fuel)%nat -> rules fuel p = Some (if MP then phony_rules MM (tl l) else [])).
  { destruct MP.
    - destruct (phony_ok MM (tl l)) as (p & E & H). exists p. split; [exact E|]. intros fuel L. apply H.
      + assert (SUB : forall x, In x (tl l) -> In x l) by (destruct l; cbn; auto).
        rewrite Forall_forall in *. intros f Hf P. destruct (U f (SUB f Hf) P) as [N1 F1]. split; auto.
        assert (QQ : forall s, Forall (fun c => special c = false /\ c <> BS /\ c <> NL /\ c <> 36 /\ c <> 0) s -> quotable false s).
        { induction 1 as [|c r (S1 & S2 & S3 & S4 & S5) F IH]; cbn [quotable]; [reflexivity|].
          split; [intros ->; discriminate S1|]. split; [auto|]. split; [auto|]. split; [discriminate|].
          apply Z.eqb_neq in S2. rewrite S2. exact IH. }
        apply QQ, F1.
      + destruct l; cbn [tl length] in *; lia.
    - exists []. split; [reflexivity|]. intros fuel L. destruct fuel; [lia|reflexivity]. }
  destruct PH as (p & E & H). rewrite E. cbn [bind]. eexists. split; [reflexivity|]. intros fuel L.
  destruct fuel as [|[|fuel]]; [lia|lia|]. rewrite prereqs_names.
  pose proof (rule_step (S fuel) t (names MM l) (NL :: p) NE Q UN ltac:(lia)) as R.
  cbn [app] in R |- *. rewrite R, rules_nl, H by lia. reflexivity.
Qed.

Theorem quote_read s q rest : quotable false s -> quote_makefile s = Ok q ->
  word 0 (q ++ 58 :: rest) = Some (s, 58 :: rest).
Proof. intros Q E. rewrite quote_ok in E. inversion E; subst. apply (quoted_word s 0 rest Q). Qed.
