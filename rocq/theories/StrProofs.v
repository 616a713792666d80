(** C14: concatenation of adjacent string literals. *)
From Coq Require Import ZArith List Bool Lia.
From Verif Require Import Base UnicodeModel IntSpec IntModel LexSpec LexModel LexSafe LexProofs LexTok StrSpec StrModel.
Import ListNotations.
Local Open Scope Z_scope.

Definition is_literal (p : list Z) (pre : prefix) (body : list Z) : Prop := exists r, p = prefix_text pre ++ 34 :: body ++ 34 :: r.
Definition kind_of (p : prefix) : skind :=
  match p with PNone => STR_NONE | PU8 | PU16 => STR_UTF16 | PU32 => STR_UTF32 | PWide => STR_WIDE end.
Definition menc (p : prefix) : enc := match prefix_enc p with S8 => E8 | S16 => E16 | S32 => E32 end.
Lemma menc_spec p : spec_enc (menc p) = prefix_enc p.
Proof. destruct p; reflexivity. Qed.
(** What is known about a literal read by the tokenizer. *)
Record read_as (p : list Z) (t : lit) (pre : prefix) (body : list Z) : Prop := mkra {
  ra_text : is_literal p pre body;
  ra_loc : lloc t = p;
  ra_base : lbase t = mty (prefix_type pre);
  ra_units : elements (prefix_enc pre) body (lunits t);
  ra_end : string_literal_end (skipn (S (length (prefix_text pre))) p) = Ok (length body);
  ra_body : body = firstn (length body) (skipn (S (length (prefix_text pre))) p);
  ra_kind : get_string_kind p = Ok (kind_of pre)
}.
Lemma rsl_inv e q p r : bytes p -> read_string_literal e q p = Ok r ->
  exists n, string_literal_end (skipn (S q) p) = Ok n /\ elements (spec_enc e) (firstn n (skipn (S q) p)) (fst r) /\ skipn (S q) p = firstn n (skipn (S q) p) ++ 34 :: skipn (S n) (skipn (S q) p) /\ length (firstn n (skipn (S q) p)) = n.
Proof.
  intros B H. unfold read_string_literal in H. destruct (string_literal_end (skipn (S q) p)) as [n| |] eqn:E; cbn [bind] in H; try discriminate.
  destruct (read_units _ _ _ _ _) as [us| |] eqn:R; cbn [bind] in H; try discriminate. injection H as <-. exists n. split; [reflexivity|]. cbn [fst].
  split; [exact (read_units_elements _ _ _ _ _ _ (bytes_skipn _ _ B) E R)|]. split; [exact (sle_quote _ _ E)|]. pose proof (sle_len _ _ E). rewrite firstn_length. lia.
Qed.
Lemma read_as_ok p t : bytes p -> read_lit p = Ok t -> exists pre body, read_as p t pre body.
Proof.
  intros B H.
  assert (M : forall pre, read_lit p = (do r <- read_string_literal (menc pre) (length (prefix_text pre)) p; Ok (mklit p (mty (prefix_type pre)) (fst r))) ->
    firstn (S (length (prefix_text pre))) p = prefix_text pre ++ [34] -> get_string_kind p = Ok (kind_of pre) -> exists pre body, read_as p t pre body).
  { intros pre E F K. rewrite E in H. destruct (read_string_literal _ _ p) as [r| |] eqn:R; cbn [bind] in H; try discriminate. injection H as <-.
    destruct (rsl_inv _ _ _ _ B R) as [n [E1 [E2 [E3 E4]]]]. exists pre, (firstn n (skipn (S (length (prefix_text pre))) p)). rewrite menc_spec in E2. constructor; cbn [lloc lbase lunits]; auto.
    - exists (skipn (S n) (skipn (S (length (prefix_text pre))) p)). change (34 :: ?a) with ([34] ++ a). rewrite app_assoc. rewrite <- E3, <- F. symmetry. apply firstn_skipn.
    - rewrite E4. exact E1.
    - rewrite E4. reflexivity. }
  unfold read_lit in H.
  repeat match type of H with
  | match ?x with _ => _ end = Ok _ => is_var x; destruct x; try discriminate H
  end.
  all: try (apply (M PNone); reflexivity); try (apply (M PU8); reflexivity); try (apply (M PU16); reflexivity); try (apply (M PU32); reflexivity); try (apply (M PWide); reflexivity).
Qed.

(** *** Kinds *)
Definition merge (q p : prefix) : option prefix :=
  if prefix_eqb q PNone then Some p else if prefix_eqb p PNone || prefix_eqb q p then Some q else None.
Lemma merge_common q p r : common_prefix (q :: p :: r) = match merge q p with Some m => common_prefix (m :: r) | None => None end.
Proof. cbn [common_prefix]. destruct (common_prefix r) as [c|]; destruct q, p; try destruct c; reflexivity. Qed.
Definition no_mix (l : list prefix) : Prop := ~ (In PU8 l /\ In PU16 l).
Lemma kinds_ok : forall l q ts, no_mix (q :: l) -> Forall2 (fun t pre => get_string_kind (lloc t) = Ok (kind_of pre) /\ lbase t = mty (prefix_type pre)) ts l ->
  join_kinds (kind_of q) (mty (prefix_type q)) ts = match common_prefix (q :: l) with Some m => Ok (kind_of m, mty (prefix_type m)) | None => Abort end.
Proof.
  induction l as [|p l IH]; intros q ts NM F; inversion F as [|t pre ts' l' [K B] F' E1 E2]; subst.
  - cbn [join_kinds common_prefix]. destruct q; reflexivity.
  - cbn [join_kinds]. rewrite K, merge_common. cbn [bind]. unfold merge.
    assert (NM1 : no_mix (p :: l)) by (intros [A A2]; apply NM; split; right; assumption).
    assert (NM2 : no_mix (q :: l)) by (intros [A A2]; apply NM; split; [destruct A as [->|A]|destruct A2 as [->|A2]]; try (left; reflexivity); right; right; assumption).
    destruct (skind_eqb (kind_of q) STR_NONE) eqn:KN.
    + assert (q = PNone) by (destruct q; try discriminate; reflexivity). subst. cbn [prefix_eqb]. rewrite B. apply IH; assumption.
    + assert (QN : prefix_eqb q PNone = false) by (destruct q; try reflexivity; discriminate). rewrite QN.
      assert (EQ : negb (skind_eqb (kind_of p) STR_NONE) && negb (skind_eqb (kind_of q) (kind_of p)) = negb (prefix_eqb p PNone || prefix_eqb q p)).
      { destruct q, p; try reflexivity; exfalso; apply NM; cbn; auto. }
      rewrite EQ. destruct (prefix_eqb p PNone || prefix_eqb q p); cbn [negb]; [apply IH; assumption|reflexivity].
Qed.
(** *** Copying *)
Lemma le_len n v : length (le n v) = n.
Proof. revert v. induction n as [|n IH]; intros v; [reflexivity|]. cbn [le length]. rewrite IH. reflexivity. Qed.
Lemma flat_le_len n l : length (flat_map (le n) l) = (n * length l)%nat.
Proof. induction l as [|x l IH]; cbn [flat_map length]; [lia|]. rewrite app_length, le_len, IH. lia. Qed.
Lemma le_zero n : le n 0 = repeat 0 n.
Proof. induction n as [|n IH]; [reflexivity|]. cbn [le repeat]. rewrite <- IH. reflexivity. Qed.
Lemma lbytes_len t : length (lbytes t) = lsize t.
Proof. unfold lbytes, lsize. rewrite app_length, flat_le_len, repeat_length. lia. Qed.
Lemma copy_ok s : forall l pre, (forall t, In t l -> esz (lbase t) = s) ->
  copy_lits (pre ++ repeat 0 (s * (length (concat (map lunits l)) + 1))) (length pre) l = Ok (pre ++ flat_map (le s) (concat (map lunits l)) ++ repeat 0 s).
Proof.
  induction l as [|t l IH]; intros pre HS; [cbn [map concat length Nat.add copy_lits flat_map app]; repeat f_equal; lia|].
  assert (ST : esz (lbase t) = s) by (apply HS; left; reflexivity). assert (HS' : forall u, In u l -> esz (lbase u) = s) by (intros u Hu; apply HS; right; exact Hu).
  cbn [map concat copy_lits]. rewrite !(app_length (lunits t)). remember (length (concat (map lunits l))) as n eqn:EN in *. unfold lsize. rewrite ST.
  replace (length pre + (length (lunits t) + 1) * s <=? length (pre ++ repeat 0%Z (s * (length (lunits t) + n + 1))))%nat with true by (symmetry; apply Nat.leb_le; rewrite app_length, repeat_length; nia).
  rewrite firstn_app, firstn_all, Nat.sub_diag. cbn [firstn]. rewrite app_nil_r, skipn_app. rewrite skipn_all2 by lia. cbn [app].
  replace (length pre + (length (lunits t) + 1) * s - length pre)%nat with ((length (lunits t) + 1) * s)%nat by lia.
  assert (SK : forall a b, (a <= b)%nat -> skipn a (repeat 0 b) = repeat 0 (b - a)).
  { clear. induction a as [|a IH]; intros b L; [rewrite Nat.sub_0_r; reflexivity|]. destruct b as [|b]; [lia|]. cbn [repeat skipn Nat.sub]. apply IH. lia. }
  rewrite SK by (rewrite Nat.mul_comm; apply Nat.mul_le_mono_l; lia). replace (s * (length (lunits t) + n + 1) - (length (lunits t) + 1) * s)%nat with (s * n)%nat by nia.
  unfold lbytes. rewrite ST. specialize (IH (pre ++ flat_map (le s) (lunits t)) HS'). rewrite app_length, flat_le_len in IH.
  replace (length pre + (length (lunits t) + 1) * s - s)%nat with (length pre + s * length (lunits t))%nat by nia.
  replace (pre ++ (flat_map (le s) (lunits t) ++ repeat 0 s) ++ repeat 0 (s * n)) with ((pre ++ flat_map (le s) (lunits t)) ++ repeat 0 (s * (n + 1))).
  2: { rewrite <- !app_assoc. do 2 f_equal. rewrite <- repeat_app. f_equal. nia. }
  rewrite IH. rewrite flat_map_app, <- !app_assoc. reflexivity.
Qed.
Lemma join_len_eq : forall l t, join_len t l = (length (concat (map lunits (t :: l))) + 1)%nat.
Proof.
  intros l t. unfold join_len. cbn [map concat]. rewrite app_length. generalize (length (lunits t)). induction l as [|u l IH]; intros n; cbn [fold_left map concat length]; [lia|].
  replace (n + 1 + (length (lunits u) + 1) - 1)%nat with ((n + length (lunits u)) + 1)%nat by lia. rewrite IH, app_length. lia.
Qed.
(** *** Reading again *)
Lemma ascii_units e : e <> E8 -> forall f n ra rb p us, Forall (fun c => 0 <= c < 128) (firstn n p) -> string_literal_end p = Ok n -> (n <= rb)%nat ->
  read_units E8 f n ra p = Ok us -> exists us', read_units e f n rb p = Ok us'.
Proof.
  intros NE. induction f as [|f IH]; intros n ra rb p us HA HE HR H; [discriminate|]. destruct n as [|n]; [exists []; reflexivity|]. destruct p as [|c r]; [discriminate|].
  cbn [read_units] in H. destruct (if c =? 92 then _ else _) as [[u k]| |] eqn:IT; cbn [bind fst snd] in H; try discriminate.
  destruct (length u <=? ra)%nat; [|discriminate]. destruct (read_units E8 f _ _ _) as [l| |] eqn:R; cbn [bind] in H; try discriminate. clear H.
  pose proof (item_inside E8 c r n u k HE IT) as [K1 [K2 K3]].
  assert (IT2 : exists v, (if c =? 92 then do q <- read_escaped_char r; Ok ([fst q mod 2 ^ enc_bits e], S (snd q)) else str_units e (c :: r)) = Ok ([v], k)).
  { destruct (Z.eqb_spec c 92) as [->|NC].
    - destruct (read_escaped_char r) as [[x m]| |]; cbn [bind fst snd] in IT |- *; try discriminate. injection IT as _ <-. eexists. reflexivity.
    - cbn [str_units] in IT. injection IT as _ <-. inversion HA as [|? ? HC _]; subst. assert (DE : decode_utf8 (c :: r) = Ok (c, 1%nat)) by (unfold decode_utf8; rewrite (proj2 (Z.ltb_lt c 128)) by lia; reflexivity).
      unfold str_units. rewrite DE. cbn [bind fst snd]. destruct e; [congruence| |eexists; reflexivity]. unfold utf16_units. rewrite (proj2 (Z.ltb_lt c 65536)) by lia. eexists. reflexivity. }
  destruct IT2 as [v IT2]. cbn [read_units]. rewrite IT2. cbn [bind fst snd length]. rewrite (proj2 (Nat.leb_le 1 rb)) by lia.
  assert (HA' : Forall (fun c => 0 <= c < 128) (firstn (S n - k) (skipn k (c :: r)))).
  { rewrite firstn_skipn_comm. replace (k + (S n - k))%nat with (S n) by lia. apply Forall_forall. intros x Hx. rewrite Forall_forall in HA. apply HA. rewrite <- (firstn_skipn k (firstn (S n) (c :: r))). apply in_or_app. right. exact Hx. }
  destruct (IH _ _ (rb - 1)%nat _ _ HA' K3 ltac:(lia) R) as [us' E]. rewrite E. eexists. reflexivity.
Qed.
Lemma common_all l m p : common_prefix l = Some m -> In p l -> p = PNone \/ p = m.
Proof.
  revert m. induction l as [|q l IH]; intros m H HI; [destruct HI|]. cbn [common_prefix] in H. destruct (common_prefix l) as [c|]; [|discriminate]. specialize (IH c eq_refl).
  destruct (prefix_eqb q PNone) eqn:QN; [injection H as ->; destruct HI as [<-|HI]; [left; destruct q; try discriminate; reflexivity|auto]|].
  destruct (prefix_eqb c PNone || prefix_eqb q c) eqn:E; [|discriminate]. injection H as <-. destruct HI as [<-|HI]; [auto|]. destruct (IH HI) as [->| ->]; [auto|].
  destruct q, c; cbn in E; try discriminate; auto.
Qed.
Definition ascii_body (b : list Z) : Prop := Forall (fun c => 0 <= c < 128) b.
Record good (m : prefix) (t2 : lit) (body : list Z) : Prop := mkgood { g_base : lbase t2 = mty (prefix_type m); g_units : elements (prefix_enc m) body (lunits t2) }.
Lemma retok_one b t pre body m : bytes b -> ~ In 0 b -> read_lit (b ++ [0]) = Ok t -> read_as (b ++ [0]) t pre body -> pre = PNone \/ pre = m ->
  let o := if (1 <? sz (mty (prefix_type m))) && (sz (lbase t) =? 1) then tokenize_string_literal t (mty (prefix_type m)) else Ok t in
  o <> UB /\ (forall t2, o = Ok t2 -> good m t2 body) /\ (ebytes m = 1%nat \/ ascii_body body -> exists t2, o = Ok t2).
Proof.
  intros B N0 RL RA HP o. subst o. rewrite (ra_base _ _ _ _ RA).
  destruct ((1 <? sz (mty (prefix_type m))) && (sz (mty (prefix_type pre)) =? 1)) eqn:C.
  2: { split; [discriminate|]. split; [|intros _; eexists; reflexivity]. intros t2 [= <-]. destruct HP as [->| ->].
       - constructor; [rewrite (ra_base _ _ _ _ RA)|pose proof (ra_units _ _ _ _ RA) as U]; destruct m; try discriminate C; try reflexivity; exact U.
       - constructor; [exact (ra_base _ _ _ _ RA)|exact (ra_units _ _ _ _ RA)]. }
  apply andb_true_iff in C as [C1 C2]. assert (pre = PNone) as -> by (destruct HP as [->| ->]; [reflexivity|destruct m; discriminate]). clear C2 HP.
  assert (E : exists e, tokenize_string_literal t (mty (prefix_type m)) = (do r <- read_string_literal e 0 (lloc t); Ok (mklit (lloc t) (mty (prefix_type m)) (fst r))) /\ spec_enc e = prefix_enc m /\ e <> E8).
  { destruct m; try discriminate C1; [exists E16|exists E32|exists E32]; (split; [reflexivity|split; [reflexivity|discriminate]]). }
  destruct E as [e [E [SE NE]]]. rewrite E. clear E. rewrite (ra_loc _ _ _ _ RA). cbn [length] in *.
  assert (BT : bytes (b ++ [0])) by (apply Forall_app; split; [exact B|repeat constructor; lia]).
  pose proof (ra_end _ _ _ _ RA) as EN. cbn [prefix_text length] in EN. pose proof (ra_body _ _ _ _ RA) as EB. cbn [prefix_text length] in EB.
  assert (LB : (1 <= length b)%nat) by (destruct b; [discriminate EN|cbn [length]; lia]).
  assert (SB : skipn 1 (b ++ [0]) = skipn 1 b ++ [0]) by (destruct b; [cbn in LB; lia|reflexivity]).
  set (n := length body) in *.
  assert (RM : (match e with E16 => (n + 0)%nat | _ => n end) = n) by (destruct e; lia).
  assert (SAFE : read_units e (S n) n n (skipn 1 (b ++ [0])) <> UB).
  { rewrite SB in EN |- *. apply read_units_safe; [|exact EN|lia|lia]. intros H. apply N0. rewrite <- (firstn_skipn 1 b). apply in_or_app. right. exact H. }
  unfold read_string_literal. rewrite EN. cbn [bind]. rewrite RM.
  destruct (read_units e (S n) n n _) as [us| |] eqn:R; cbn [bind fst]; [|congruence|].
  - split; [discriminate|]. split; [|intros _; eexists; reflexivity]. intros t2 [= <-]. constructor; cbn [lbase lunits]; [reflexivity|]. rewrite EB, <- SE. exact (read_units_elements _ _ _ _ _ _ (bytes_skipn _ _ BT) EN R).
  - split; [discriminate|]. split; [discriminate|]. intros [H|H]; [destruct m; discriminate|]. exfalso. unfold ascii_body in H. rewrite EB in H.
    assert (R8 : exists us, read_units E8 (S n) n n (skipn 1 (b ++ [0])) = Ok us).
    { pose proof (ra_text _ _ _ _ RA) as [r T]. cbn [prefix_text app] in T. rewrite T in RL. cbn [read_lit] in RL. rewrite <- T in RL. unfold read_string_literal in RL. rewrite EN in RL. cbn [bind] in RL.
      destruct (read_units E8 (S n) n n _) as [us| |]; [eauto|discriminate|discriminate]. }
    destruct R8 as [us R8]. destruct (ascii_units e NE _ _ _ n _ _ H EN (le_n _) R8) as [us' X]. congruence.
Qed.
(** Literals with their texts. *)
Definition lit_of (b : list Z) (t : lit) (d : prefix * list Z) : Prop := read_as (b ++ [0]) t (fst d) (snd d).
Lemma retok_all m : forall bs ts ds, Forall (fun b => bytes b /\ ~ In 0 b) bs -> Forall2 (fun b t => read_lit (b ++ [0]) = Ok t) bs ts ->
  Forall2 (fun bt d => lit_of (fst bt) (snd bt) d) (combine bs ts) ds -> (forall d, In d ds -> fst d = PNone \/ fst d = m) ->
  let o := retokenize (mty (prefix_type m)) ts in
  o <> UB /\ (forall l2, o = Ok l2 -> Forall2 (good m) l2 (map snd ds)) /\ (ebytes m = 1%nat \/ Forall ascii_body (map snd ds) -> exists l2, o = Ok l2).
Proof.
  induction bs as [|b bs IH]; intros ts ds FB FT FD HP; inversion FT as [|b0 t bs0 ts' RL FT' E1 E2]; subst; cbn [combine] in FD; inversion FD as [|bt d bts ds' L FD' E1 E2]; subst.
  - cbn [retokenize]. split; [discriminate|]. split; [intros l2 [= <-]; constructor|intros _; eexists; reflexivity].
  - inversion FB as [|? ? [B N0] FB']; subst. cbn [fst snd] in L. cbn [retokenize].
    pose proof (retok_one b t (fst d) (snd d) m B N0 RL L (HP d (or_introl eq_refl))) as [O1 [O2 O3]].
    pose proof (IH ts' ds' FB' FT' FD' (fun d Hd => HP d (or_intror Hd))) as [I1 [I2 I3]]. clear IH.
    destruct (if _ && _ then _ else _) as [t2| |]; cbn [bind]; [|congruence|].
    + destruct (retokenize _ ts') as [r2| |]; cbn [bind]; [|congruence|].
      * split; [discriminate|]. split; [|intros _; eexists; reflexivity]. intros l2 [= <-]. cbn [map]. constructor; [apply O2; reflexivity|apply I2; reflexivity].
      * split; [discriminate|]. split; [discriminate|]. intros [H|H]; [destruct (I3 (or_introl H)); discriminate|]. cbn [map] in H. inversion H; subst. destruct (I3 (or_intror H3)); discriminate.
    + split; [discriminate|]. split; [discriminate|]. intros [H|H]; [destruct (O3 (or_introl H)); discriminate|]. cbn [map] in H. inversion H; subst. destruct (O3 (or_intror H2)); discriminate.
Qed.
Lemma esz_ebytes m : esz (mty (prefix_type m)) = ebytes m.
Proof. destruct m; reflexivity. Qed.
Lemma good_units m : forall l bodies, Forall2 (good m) l bodies -> Forall2 (elements (prefix_enc m)) bodies (map lunits l) /\ forall t, In t l -> esz (lbase t) = ebytes m.
Proof.
  induction 1 as [|t b l bs G F [I1 I2]]; cbn [map]; [split; [constructor|intros t []]|]. split; [constructor; [apply G|exact I1]|].
  intros u [<-|Hu]; [rewrite (g_base _ _ _ G); apply esz_ebytes|auto].
Qed.
Lemma lits_exist : forall bs ts, Forall (fun b => bytes b /\ ~ In 0 b) bs -> Forall2 (fun b t => read_lit (b ++ [0]) = Ok t) bs ts ->
  exists ds, Forall2 (fun bt d => lit_of (fst bt) (snd bt) d) (combine bs ts) ds.
Proof.
  intros bs ts FB FT. induction FT as [|b t bs ts RL FT IH]; [exists []; constructor|]. inversion FB as [|? ? [B N0] FB']; subst. destruct (IH FB') as [ds H].
  destruct (read_as_ok (b ++ [0]) t) as [pre [body RA]]; [apply Forall_app; split; [exact B|repeat constructor; lia]|exact RL|]. exists ((pre, body) :: ds). cbn [combine]. constructor; [exact RA|exact H].
Qed.
(** The texts as literals of the grammar. *)
Definition grammatical (bs : list (list Z)) (ds : list (prefix * list Z)) : Prop :=
  Forall2 (fun b d => is_literal (b ++ [0]) (fst d) (snd d) /\ exists us, elements (prefix_enc (fst d)) (snd d) us) bs ds.
Theorem concat_ok : forall bs t l, Forall (fun b => bytes b /\ ~ In 0 b) bs -> Forall2 (fun b t => read_lit (b ++ [0]) = Ok t) bs (t :: l) ->
  exists ds, grammatical bs ds /\ (no_mix (map fst ds) ->
    match common_prefix (map fst ds) with
    | None => join_literals t l = Abort
    | Some m =>
        join_literals t l <> UB /\
        (forall ty buf, join_literals t l = Ok (ty, buf) -> ty = mty (prefix_type m) /\
           exists uss, Forall2 (elements (prefix_enc m)) (map snd ds) uss /\ buf = flat_map (le (ebytes m)) (concat uss ++ [0])) /\
        (ebytes m = 1%nat \/ Forall ascii_body (map snd ds) -> exists r, join_literals t l = Ok r)
    end).
Proof.
  intros bs t l FB FT. destruct (lits_exist bs (t :: l) FB FT) as [ds FD]. exists ds. split.
  { clear -FT FD. revert FT ds FD. generalize (t :: l) as ts. clear. intros ts FT. induction FT as [|b t bs ts RL FT IH]; intros ds FD; cbn [combine] in FD; inversion FD as [|bt d bts ds' L FD' E1 E2]; subst; constructor.
    - cbn [fst snd] in L. split; [exact (ra_text _ _ _ _ L)|exists (lunits t); exact (ra_units _ _ _ _ L)].
    - apply IH. exact FD'. }
  intros NM. inversion FT as [|b0 t0 bs' l0 RL FT' E1 E2]; subst. cbn [combine] in FD. inversion FD as [|bt d bts ds' L FD' E1 E2]; subst. cbn [fst snd] in L.
  cbn [map] in NM |- *.
  assert (K : join_kinds (kind_of (fst d)) (lbase t) l = match common_prefix (fst d :: map fst ds') with Some m => Ok (kind_of m, mty (prefix_type m)) | None => Abort end).
  { rewrite (ra_base _ _ _ _ L). apply kinds_ok; [exact NM|]. clear -FT' FD'. revert ds' FD'. induction FT' as [|b t bs ts RL FT IH]; intros ds FD; cbn [combine] in FD; inversion FD as [|bt d bts ds' L FD' E1 E2]; subst; cbn [map]; constructor.
    - cbn [fst snd] in L. rewrite (ra_loc _ _ _ _ L). split; [exact (ra_kind _ _ _ _ L)|exact (ra_base _ _ _ _ L)].
    - apply IH. exact FD'. }
  unfold join_literals. rewrite (ra_loc _ _ _ _ L), (ra_kind _ _ _ _ L). cbn [bind]. rewrite K. clear K.
  destruct (common_prefix (fst d :: map fst ds')) as [m|] eqn:CP; cbn [bind]; [|reflexivity]. cbn [snd].
  pose proof (retok_all m (b0 :: bs') (t :: l) (d :: ds') FB FT) as RA. cbn [combine] in RA.
  specialize (RA ltac:(constructor; assumption) (fun x Hx => common_all _ _ _ CP (in_map fst (d :: ds') x Hx))). cbv zeta in RA. destruct RA as [R1 [R2 R3]].
  destruct (retokenize _ _) as [l2| |] eqn:RT; cbn [bind]; [|congruence|].
  - specialize (R2 l2 eq_refl). cbn [map] in R2. inversion R2 as [|t2 bd r2 bds G GR E1 E2]; subst. rewrite esz_ebytes, join_len_eq.
    destruct (good_units _ _ _ R2) as [GU GS]. pose proof (copy_ok (ebytes m) (t2 :: r2) [] GS) as CO. cbn [app length] in CO. rewrite CO. cbn [bind].
    split; [discriminate|]. split; [|intros _; eexists; reflexivity]. intros ty buf [= <- <-]. split; [reflexivity|]. exists (map lunits (t2 :: r2)). split; [exact GU|]. rewrite (flat_map_app _ (concat (map lunits (t2 :: r2)))). change (flat_map (le (ebytes m)) [0]) with (le (ebytes m) 0 ++ []). rewrite app_nil_r, le_zero. reflexivity.
  - split; [discriminate|]. split; [discriminate|]. intros H. destruct (R3 H); discriminate.
Qed.
