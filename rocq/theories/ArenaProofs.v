From Coq Require Import ZArith List Bool Lia.
From Verif Require Import Base ArenaModel ArenaSpec HashmapProofs.
Import ListNotations.
Local Open Scope Z_scope.

Lemma aligned_size_spec sz : 0 <= sz <= PAGE_SIZE ->
  exists q, aligned_size sz = 16 * q /\ sz <= 16 * q < sz + 16.
Proof.
  unfold PAGE_SIZE, aligned_size, two64. intros H.
  rewrite Z.mod_small by lia.
  exists ((sz + 15) / 16).
  assert (E : Z.land (sz + 15) (18446744073709551616 - 16) = 16 * ((sz + 15) / 16)).
  { change (18446744073709551616 - 16) with (Z.shiftl (Z.ones 60) 4).
    change 16 with (2 ^ 4) at 1. rewrite <- (Z.shiftr_div_pow2 _ 4), Z.mul_comm, <- Z.shiftl_mul_pow2 by lia.
    apply Z.bits_inj'. intros n Hn.
    rewrite Z.land_spec.
    destruct (Z_lt_ge_dec n 4).
    - rewrite !Z.shiftl_spec_low by lia. apply andb_false_r.
    - rewrite !Z.shiftl_spec by lia. rewrite Z.shiftr_spec by lia.
      replace (n - 4 + 4) with n by lia.
      destruct (Z_lt_ge_dec (n - 4) 60).
      + rewrite Z.ones_spec_low by lia. apply andb_true_r.
      + rewrite Z.ones_spec_high by lia. rewrite andb_false_r.
        symmetry. apply Z.bits_above_log2; [lia|].
        assert (Z.log2 (sz + 15) <= Z.log2 4079) by (apply Z.log2_le_mono; lia).
        change (Z.log2 4079) with 11 in *. lia. }
  rewrite E. split; [reflexivity|].
  pose proof (Z.div_mod (sz + 15) 16 ltac:(lia)).
  pose proof (Z.mod_pos_bound (sz + 15) 16 ltac:(lia)). lia.
Qed.

Lemma zero8_spec m p o p' o' :
  zero8 m p o p' o' = if Nat.eqb p' p && (o <=? o') && (o' <? o + 8) then 0 else m p' o'.
Proof. reflexivity. Qed.

Lemma zero_words_ok n : forall m p o, 0 <= o -> o + 8 * Z.of_nat n <= PAGE_SIZE ->
  exists m', zero_words n m p o = Ok m' /\
    (forall x, o <= x < o + 8 * Z.of_nat n -> m' p x = 0) /\
    (forall p' x, p' <> p \/ x < o \/ o + 8 * Z.of_nat n <= x -> m' p' x = m p' x).
Proof.
  induction n as [|n IH]; intros m p o H0 H1.
  - exists m. split; [reflexivity|]. split; [intros; lia|auto].
  - cbn [zero_words].
    destruct (Z.leb_spec 0 o); [|lia]. destruct (Z.leb_spec (o + 8) PAGE_SIZE); [|lia].
    cbn [andb]. destruct (IH (zero8 m p o) p (o + 8)) as (m' & E & A & B); try lia.
    exists m'. split; [auto|]. split.
    + intros x Hx. destruct (Z_lt_ge_dec x (o + 8)).
      * rewrite B by (right; lia). rewrite zero8_spec, Nat.eqb_refl.
        destruct (Z.leb_spec o x); [|lia]. destruct (Z.ltb_spec x (o + 8)); [|lia]. reflexivity.
      * apply A. lia.
    + intros p' x Hx. rewrite B by (destruct Hx as [?|[?|?]]; [auto|right; lia|right; lia]).
      rewrite zero8_spec.
      destruct (Nat.eqb_spec p' p); cbn [andb]; auto.
      destruct (Z.leb_spec o x); cbn [andb]; auto. destruct (Z.ltb_spec x (o + 8)); auto.
      destruct Hx as [?|[?|?]]; [congruence|lia|lia].
Qed.

Definition blk (b : block) (sz : Z) : range := mkrange (bpage b) (boff b) sz.

Definition wf (a : arena) : Prop := exists q, aused a = 16 * q /\ 0 <= aused a <= PAGE_SIZE.

(** One allocation. *)
Lemma allocate_ok a sz c : wf a -> 0 <= sz <= PAGE_SIZE ->
  exists b a', allocate a sz c = Ok (b, a') /\ wf a' /\
    (exists q, boff b = 16 * q) /\ 0 <= boff b /\ boff b + aligned_size sz <= PAGE_SIZE /\
    page a' = bpage b /\ aused a' = boff b + aligned_size sz /\
    (bpage b = page a /\ boff b = aused a \/ bpage b = S (page a)) /\
    (c = true -> forall o, boff b <= o < boff b + sz -> amem a' (bpage b) o = 0) /\
    (forall p o, ~ covers (mkrange (bpage b) (boff b) (aligned_size sz)) p o ->
        amem a' p o = amem a p o).
Proof.
  intros (q & Hq & Hu) Hs. destruct (aligned_size_spec sz Hs) as (r & Hr & Hb).
  unfold allocate, wf. set (asz := aligned_size sz) in *.
  assert (Hasz : 0 <= asz <= PAGE_SIZE) by (unfold PAGE_SIZE in *; lia).
  assert (G : forall b a1, page a1 = bpage b -> aused a1 = boff b + asz -> amem a1 = amem a ->
     (exists q, boff b = 16 * q) -> 0 <= boff b -> boff b + asz <= PAGE_SIZE ->
     (bpage b = page a /\ boff b = aused a \/ bpage b = S (page a)) ->
     exists b' a',
      (if c then do m <- zero_words (Z.to_nat (Z.shiftr asz 3)) (amem a1) (bpage b) (boff b);
                 Ok (b, mkarena (page a1) (aused a1) m) else Ok (b, a1)) = Ok (b', a') /\
      (exists q, aused a' = 16 * q /\ 0 <= aused a' <= PAGE_SIZE) /\
      (exists q, boff b' = 16 * q) /\ 0 <= boff b' /\ boff b' + asz <= PAGE_SIZE /\
      page a' = bpage b' /\ aused a' = boff b' + asz /\
      (bpage b' = page a /\ boff b' = aused a \/ bpage b' = S (page a)) /\
      (c = true -> forall o, boff b' <= o < boff b' + sz -> amem a' (bpage b') o = 0) /\
      (forall p o, ~ covers (mkrange (bpage b') (boff b') asz) p o ->
          amem a' p o = amem a p o)).
  { intros b a1 P1 P2 P3 (k & P4) P5 P6 P7.
    destruct c.
    - assert (Hn : 8 * Z.of_nat (Z.to_nat (Z.shiftr asz 3)) = asz).
      { rewrite Z.shiftr_div_pow2 by lia. change (2 ^ 3) with 8.
        rewrite Hr. replace (16 * r) with (2 * r * 8) by lia. rewrite Z.div_mul by lia. lia. }
      destruct (zero_words_ok (Z.to_nat (Z.shiftr asz 3)) (amem a1) (bpage b) (boff b))
        as (m' & E & A & B); try lia.
      rewrite E. cbn [bind]. exists b. eexists. split; [reflexivity|]. cbn [page aused amem].
      rewrite Hn in A, B.
      split. { exists (k + r). lia. }
      split; [eauto|]. split; [lia|]. split; [lia|]. split; [auto|]. split; [auto|].
      split; [auto|]. split.
      + intros _ o Ho. apply A. lia.
      + intros p o NC. rewrite B, P3; [reflexivity|].
        unfold covers in NC; cbn [rpage rstart rlen] in NC.
        destruct (Nat.eq_dec p (bpage b)); [right|left; auto]. lia.
    - exists b, a1. split; [reflexivity|].
      split. { exists (k + r). lia. }
      split; [eauto|]. split; [lia|]. split; [lia|]. split; [auto|]. split; [auto|].
      split; [auto|]. split; [discriminate|]. intros. rewrite P3. auto. }
  rewrite Z.mod_small by (unfold PAGE_SIZE, two64 in *; lia).
  destruct (Z.leb_spec (aused a + asz) PAGE_SIZE).
  - apply G; cbn [page aused amem bpage boff]; auto; try lia. eauto.
  - apply G; cbn [page aused amem bpage boff]; auto; try lia. exists 0; lia.
Qed.

Definition sized (x : (block * arena)) (r : Z * bool) : range := blk (fst x) (fst r).

Lemma session_ok reqs : forall a, wf a -> Forall (fun r => 0 <= fst r <= PAGE_SIZE) reqs ->
  exists out, session reqs a = Ok out /\ length out = length reqs /\
   (forall i x r, nth_error out i = Some x -> nth_error reqs i = Some r ->
      (exists q, boff (fst x) = 16 * q) /\ 0 <= boff (fst x) /\
      boff (fst x) + fst r <= PAGE_SIZE /\
      ((page a < bpage (fst x))%nat \/ page a = bpage (fst x) /\ aused a <= boff (fst x)) /\
      (snd r = true -> forall o, boff (fst x) <= o < boff (fst x) + fst r ->
          amem (snd x) (bpage (fst x)) o = 0)) /\
   (forall i j x y r r', (i < j)%nat -> nth_error out i = Some x -> nth_error out j = Some y ->
      nth_error reqs i = Some r -> nth_error reqs j = Some r' ->
      disjoint (blk (fst x) (fst r)) (blk (fst y) (fst r')) /\
      (forall p o, covers (blk (fst x) (fst r)) p o -> amem (snd y) p o = amem (snd x) p o)).
Proof.
  induction reqs as [|[sz c] reqs IH]; intros a W F.
  - exists []. split; [reflexivity|]. split; [reflexivity|].
    split; [intros [|?]; discriminate|]. intros i [|j] x y r r' ? ?; discriminate.
  - inversion F as [|? ? Hs F']; subst. cbn [fst] in Hs.
    destruct (allocate_ok a sz c W Hs) as
      (b & a1 & E & W1 & B1 & B2 & B3 & B4 & B5 & B6 & B7 & B8).
    destruct (IH a1 W1 F') as (out & E2 & L & P1 & P2).
    destruct (aligned_size_spec sz Hs) as (rr & Hr & Hb).
    exists ((b, a1) :: out). cbn [session]. rewrite E. cbn [bind snd]. rewrite E2.
    split; [reflexivity|]. split; [cbn [length]; lia|].
    assert (M : forall j y r', nth_error out j = Some y -> nth_error reqs j = Some r' ->
      forall p o, covers (blk b sz) p o -> covers (blk (fst y) (fst r')) p o -> False).
    { intros j y r' Hy Hr' p o [C1 C2] [D1 D2]. unfold blk in *; cbn [rpage rstart rlen] in *.
      destruct (P1 j y r' Hy Hr') as (_ & _ & _ & [Q|[Q1 Q2]] & _); lia. }
    split.
    + intros [|i] x r Hx Hreq; cbn [nth_error] in *.
      * injection Hx as <-. injection Hreq as <-. cbn [fst snd].
        split; [auto|]. split; [lia|]. split; [lia|]. split; [|auto].
        destruct B6 as [[Q1 Q2]|Q1]; [right; lia|left; lia].
      * destruct (P1 i x r Hx Hreq) as (A1 & A2 & A3 & A4 & A5).
        split; [auto|]. split; [auto|]. split; [auto|]. split; [|auto].
        destruct B6 as [[Q1 Q2]|Q]; destruct A4 as [?|[? ?]]; try (left; lia); right; lia.
    + intros i j x y r r' Hij Hx Hy Hri Hrj.
      destruct j as [|j]; [lia|]. cbn [nth_error] in Hy, Hrj.
      destruct i as [|i]; cbn [nth_error] in Hx, Hri.
      * injection Hx as <-. injection Hri as <-. cbn [fst snd].
        split; [intros p o; apply (M j y r'); auto|].
        (* no later allocation changes a byte of this block *)
        assert (ST : forall rs a2, wf a2 -> Forall (fun r => 0 <= fst r <= PAGE_SIZE) rs ->
           ((bpage b < page a2)%nat \/ bpage b = page a2 /\ boff b + sz <= aused a2) ->
           forall out2, session rs a2 = Ok out2 -> forall j y, nth_error out2 j = Some y ->
           forall p o, covers (blk b sz) p o -> amem (snd y) p o = amem a2 p o).
        { induction rs as [|[s2 c2] rs IHr]; intros a2 W2 F2 Hpos out2 Eo j0 y0 Hy0 p o Cv.
          - injection Eo as <-. destruct j0; discriminate.
          - inversion F2 as [|? ? Hs2 F2']; subst. cbn [fst] in Hs2.
            destruct (allocate_ok a2 s2 c2 W2 Hs2) as
              (b3 & a3 & E3 & W3 & _ & D2 & _ & D4 & D5 & D6 & _ & D8).
            destruct (aligned_size_spec s2 Hs2) as (r2 & Hr2 & Hb2).
            cbn [session] in Eo. rewrite E3 in Eo. cbn [bind snd] in Eo.
            destruct (session rs a3) as [o3| |] eqn:E4; try discriminate. cbn [bind] in Eo.
            injection Eo as <-.
            assert (K : amem a3 p o = amem a2 p o).
            { apply D8. intros [C1 C2]. destruct Cv as [V1 V2].
              unfold blk in *; cbn [rpage rstart rlen] in *.
              destruct D6 as [[? ?]|?]; lia. }
            destruct j0 as [|j0]; cbn [nth_error] in Hy0.
            + injection Hy0 as <-. exact K.
            + rewrite <- K. eapply IHr; eauto.
              destruct D6 as [[? ?]|?], Hpos as [?|[? ?]]; try (left; lia); right; lia. }
        intros p o Cv. eapply ST with (rs := reqs); eauto.
        right. lia.
      * eapply P2; [|eauto..]. lia.
Qed.

Lemma arena_session_ok m reqs : Forall (fun r => 0 <= fst r <= PAGE_SIZE) reqs ->
  exists out, session reqs (arena_on m) = Ok out /\ length out = length reqs /\
   (forall i x r, nth_error out i = Some x -> nth_error reqs i = Some r ->
      (exists q, boff (fst x) = 16 * q) /\ 0 <= boff (fst x) /\
      boff (fst x) + fst r <= PAGE_SIZE /\
      (snd r = true -> forall o, boff (fst x) <= o < boff (fst x) + fst r ->
          amem (snd x) (bpage (fst x)) o = 0)) /\
   (forall i j x y r r', (i < j)%nat -> nth_error out i = Some x -> nth_error out j = Some y ->
      nth_error reqs i = Some r -> nth_error reqs j = Some r' ->
      disjoint (mkrange (bpage (fst x)) (boff (fst x)) (fst r))
               (mkrange (bpage (fst y)) (boff (fst y)) (fst r')) /\
      (forall p o, covers (mkrange (bpage (fst x)) (boff (fst x)) (fst r)) p o ->
         amem (snd y) p o = amem (snd x) p o)).
Proof.
  intros F. destruct (session_ok reqs (arena_on m)) as (out & E & L & P1 & P2); auto.
  { exists 0. unfold PAGE_SIZE; simpl; lia. }
  exists out. split; [auto|]. split; [auto|]. split; [|exact P2].
  intros i x r H1 H2. destruct (P1 i x r H1 H2) as (A & B & C & _ & D). auto.
Qed.

Lemma arena_big_refuted :
  exists sz, sz = PAGE_SIZE + 1 /\ session [(sz, true)] (arena_on (fun _ _ => 7)) = UB.
Proof. eexists. split; [reflexivity|]. vm_compute. reflexivity. Qed.

(** ** strarray *)
Definition str_rep {A} (arr : strarray A) (l : list A) : Prop :=
  slen arr = Z.of_nat (length l) /\
  match sdata arr with
  | None => l = [] /\ slen arr = 0
  | Some d => scap arr = Z.of_nat (length d) /\ 8 <= scap arr /\ slen arr <= scap arr /\
              (forall i, (i < length l)%nat -> nth_error d i = option_map Some (nth_error l i)) /\
              (forall i, (length l <= i < length d)%nat -> nth_error d i = Some None)
  end.

Lemma int_of_ok z : INT_MIN <= z <= INT_MAX -> int_of z = Ok z.
Proof.
  intros H. unfold int_of. destruct (Z.leb_spec INT_MIN z); [|lia].
  destruct (Z.leb_spec z INT_MAX); [|lia]. reflexivity.
Qed.

Lemma nth_error_repeat {A} (x : A) n i : (i < n)%nat -> nth_error (repeat x n) i = Some x.
Proof. revert i; induction n; destruct i; simpl; intros; try lia; auto. apply IHn; lia. Qed.

Lemma push_core {A} (d : list (option A)) (l : list A) s :
  (length l < length d)%nat ->
  (forall i, (i < length l)%nat -> nth_error d i = option_map Some (nth_error l i)) ->
  (forall i, (length l <= i < length d)%nat -> nth_error d i = Some None) ->
  let d' := upd d (length l) (Some s) in
  length d' = length d /\
  (forall i, (i < length (l ++ [s]))%nat -> nth_error d' i = option_map Some (nth_error (l ++ [s]) i)) /\
  (forall i, (length (l ++ [s]) <= i < length d')%nat -> nth_error d' i = Some None).
Proof.
  intros Hl H1 H2 d'. unfold d'. rewrite upd_length, app_length. cbn [length].
  split; [auto|]. split; intros i Hi.
  - destruct (Nat.eq_dec i (length l)) as [->|N].
    + rewrite nth_upd_same by auto. rewrite nth_error_app2, Nat.sub_diag by lia. reflexivity.
    + rewrite nth_upd_other by auto. rewrite nth_error_app1 by lia. apply H1. lia.
  - rewrite nth_upd_other by lia. apply H2. lia.
Qed.

Lemma strarray_push_ok {A} (arr : strarray A) l s :
  str_rep arr l -> slen arr < 1073741823 -> 
  exists arr', strarray_push arr s = Ok arr' /\ str_rep arr' (l ++ [s]).
Proof.
  intros [Hlen H] Hb. unfold strarray_push.
  assert (INTS : forall d cap, scap (mkstr (Some d) 0 cap) = Z.of_nat (length d) ->
     8 <= cap -> slen arr < cap ->
     (forall i, (i < length l)%nat -> nth_error d i = option_map Some (nth_error l i)) ->
     (forall i, (length l <= i < length d)%nat -> nth_error d i = Some None) ->
     exists arr', (if (0 <=? slen arr) && (slen arr <? Z.of_nat (length d))
       then do l' <- int_of (slen arr + 1);
         Ok (mkstr (Some (upd d (Z.to_nat (slen arr)) (Some s))) l' cap)
       else UB) = Ok arr' /\ str_rep arr' (l ++ [s])).
  { intros d cap C1 C2 C3 C4 C5. cbn [scap] in C1.
    destruct (Z.leb_spec 0 (slen arr)); [|lia].
    destruct (Z.ltb_spec (slen arr) (Z.of_nat (length d))); [|lia]. cbn [andb].
    rewrite int_of_ok by (unfold INT_MIN, INT_MAX; lia). cbn [bind].
    eexists; split; [reflexivity|]. rewrite Hlen, Nat2Z.id.
    destruct (push_core d l s) as (X1 & X2 & X3); auto; [lia|].
    split; cbn [slen sdata scap].
    - rewrite app_length; cbn [length]; lia.
    - rewrite X1. split; [auto|]. split; [auto|]. split; [lia|]. split; auto.
      rewrite X1 in X3. auto. }
  destruct (sdata arr) as [d|].
  - destruct H as (A1 & A2 & A3 & A4 & A5).
    destruct (Z.eqb_spec (scap arr) (slen arr)) as [E|E].
    + rewrite int_of_ok by (unfold INT_MIN, INT_MAX; lia). cbn [bind fst snd].
      assert (LN : length (firstn (Z.to_nat (scap arr * 2))
                     (d ++ repeat None (Z.to_nat (scap arr * 2 - slen arr))))
                   = (2 * length d)%nat).
      { rewrite firstn_length, app_length, repeat_length. lia. }
      assert (FN : firstn (Z.to_nat (scap arr * 2))
                     (d ++ repeat None (Z.to_nat (scap arr * 2 - slen arr)))
                   = d ++ repeat None (Z.to_nat (scap arr * 2 - slen arr))).
      { apply firstn_all2. rewrite app_length, repeat_length. lia. }
      rewrite FN in *. 
      apply INTS; cbn [scap]; auto; try lia.
      * intros i Hi. rewrite nth_error_app1 by lia. auto.
      * intros i Hi. rewrite nth_error_app2 by lia. apply nth_error_repeat. lia.
    + cbn [bind fst snd]. apply INTS; cbn [scap]; auto; lia.
  - destruct H as [-> H]. replace (8 =? slen arr) with false by (rewrite H; reflexivity).
    cbn [bind fst snd].
    apply INTS; cbn [scap length repeat]; auto; try lia.
    intros i Hi. cbn [length] in Hi. apply (nth_error_repeat None 8). lia.
Qed.

Lemma push_all_ok {A} (l : list A) : forall arr l0, str_rep arr l0 ->
  Z.of_nat (length l0 + length l) <= 1073741823 ->
  exists arr', push_all arr l = Ok arr' /\ str_rep arr' (l0 ++ l).
Proof.
  induction l as [|s l IH]; intros arr l0 H L.
  - exists arr. rewrite app_nil_r. auto.
  - cbn [length] in L. destruct (strarray_push_ok arr l0 s H) as (a1 & E & H1).
    { destruct H as [-> _]. lia. }
    cbn [push_all]. rewrite E. cbn [bind].
    destruct (IH a1 (l0 ++ [s]) H1) as (a2 & E2 & H2).
    { rewrite app_length; cbn [length]; lia. }
    exists a2. split; [auto|]. rewrite <- app_assoc in H2. auto.
Qed.

Lemma strarray_is_list {A} (l : list A) : Z.of_nat (length l) <= 1073741823 ->
  exists arr, push_all empty_strarray l = Ok arr /\ slen arr = Z.of_nat (length l) /\
    (l <> [] -> exists d, sdata arr = Some d /\ scap arr = Z.of_nat (length d) /\
      slen arr <= scap arr /\
      forall i, nth_error (firstn (length l) d) i = option_map Some (nth_error l i)).
Proof.
  intros H. destruct (push_all_ok l empty_strarray []) as (arr & E & [R1 R2]); auto.
  { split; [reflexivity|]. simpl. auto. }
  exists arr. split; [auto|]. cbn [app] in *. split; [auto|]. intros NE.
  destruct (sdata arr) as [d|]; [|destruct R2 as [-> _]; congruence].
  exists d. destruct R2 as (A1 & A2 & A3 & A4 & A5). repeat (split; [auto|]).
  intros i. destruct (Nat.lt_ge_cases i (length l)) as [L|L].
  - rewrite <- A4 by auto. clear - L. revert i L. generalize (length l). intros n. revert d.
    induction n; intros d i L; [lia|]. destruct d; [destruct i; auto|].
    destruct i; simpl; auto. apply IHn. lia.
  - assert (X : nth_error l i = None) by (apply nth_error_None; lia). rewrite X. simpl.
    apply nth_error_None. rewrite firstn_length. lia.
Qed.
