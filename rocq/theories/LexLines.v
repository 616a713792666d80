(** C06: line splicing and line numbers. *)
From Coq Require Import ZArith List Bool Lia.
From Verif Require Import Base LexSpec LexModel.
Import ListNotations.
Local Open Scope Z_scope.

Fixpoint canon (s : list Z) : list Z :=
  match s with
  | [] => []
  | c :: r =>
      if c =? 13 then
        match r with
        | d :: r' => if d =? 10 then 10 :: canon r' else 10 :: canon r
        | [] => [10]
        end
      else c :: canon r
  end.

Lemma canon_ind (P : list Z -> Prop) : P [] -> (forall c r, P r -> (forall d r', r = d :: r' -> P r') -> P (c :: r)) ->
  forall s, P s.
Proof.
  intros H0 H1. assert (X : forall s, P s /\ forall c r, s = c :: r -> P r).
  { induction s as [|c r [IH1 IH2]]; (split; [|]).
    - exact H0.
    - intros; discriminate.
    - apply H1; [exact IH1|]. intros d r' E. exact (IH2 d r' E).
    - intros c0 r0 [= <- <-]. exact IH1. }
  intros s. apply X.
Qed.

Lemma canonicalize_canon s : ~ In 0 s -> canonicalize_newline (s ++ [0]) = canon s ++ [0].
Proof.
  induction s as [|c r IH IH2] using canon_ind; intros N; [reflexivity|].
  cbn [app canonicalize_newline canon]. destruct (Z.eqb_spec c 0) as [->|]; [destruct N; left; reflexivity|].
  destruct (Z.eqb_spec c 13) as [->|].
  - destruct r as [|d r']; [reflexivity|]. cbn [app].
    destruct (Z.eqb_spec d 10) as [->|].
    + cbn [app]. f_equal. apply (IH2 10 r' eq_refl). intros X. apply N. right. right. exact X.
    + cbn [app]. f_equal. apply IH. intros X. apply N. right. exact X.
  - cbn [app]. f_equal. apply IH. intros X. apply N. right. exact X.
Qed.

Lemma phys_cons s : exists l ls, phys_lines s = l :: ls.
Proof.
  destruct s as [|c r]; [cbn; eauto|]. cbn [phys_lines]. destruct (c =? 10); [eauto|]. destruct (c =? 13).
  - destruct r as [|d r']; [eauto|]. destruct (d =? 10); eauto.
  - destruct (phys_lines r); eauto.
Qed.

Lemma canon_no13 s : ~ In 13 (canon s).
Proof.
  induction s as [|c r IH IH2] using canon_ind; [intros []|]. cbn [canon].
  destruct (Z.eqb_spec c 13) as [->|N].
  - destruct r as [|d r']; [intros [X|[]]; discriminate|]. destruct (Z.eqb_spec d 10) as [->|].
    + intros [X|X]; [discriminate|]. exact (IH2 _ _ eq_refl X).
    + intros [X|X]; [discriminate|]. exact (IH X).
  - intros [X|X]; [congruence|]. exact (IH X).
Qed.

Lemma canon_no0 s : ~ In 0 s -> ~ In 0 (canon s).
Proof.
  induction s as [|c r IH IH2] using canon_ind; intros N; [intros []|]. cbn [canon].
  assert (Nr : ~ In 0 r) by (intros X; apply N; right; exact X).
  destruct (Z.eqb_spec c 13) as [->|].
  - destruct r as [|d r']; [intros [X|[]]; discriminate|]. destruct (Z.eqb_spec d 10) as [->|].
    + intros [X|X]; [discriminate|]. apply (IH2 _ _ eq_refl); [|exact X]. intros Y. apply Nr. right. exact Y.
    + intros [X|X]; [discriminate|]. exact (IH Nr X).
  - intros [X|X]; [apply N; left; exact X|]. exact (IH Nr X).
Qed.

Lemma phys_canon s : phys_lines (canon s) = phys_lines s.
Proof.
  induction s as [|c r IH IH2] using canon_ind; [reflexivity|]. cbn [canon].
  destruct (Z.eqb_spec c 13) as [->|].
  - destruct r as [|d r']; [reflexivity|]. destruct (Z.eqb_spec d 10) as [->|N10].
    + cbn [phys_lines Z.eqb Pos.eqb]. f_equal. exact (IH2 _ _ eq_refl).
    + change (phys_lines (13 :: d :: r')) with (if d =? 10 then [] :: phys_lines r' else [] :: phys_lines (d :: r')).
      apply Z.eqb_neq in N10. rewrite N10.
      change (phys_lines (10 :: canon (d :: r'))) with ([] :: phys_lines (canon (d :: r'))). f_equal. exact IH.
  - change (phys_lines (c :: canon r)) with (if c =? 10 then [] :: phys_lines (canon r) else if c =? 13 then
        match canon r with d :: r' => if d =? 10 then [] :: phys_lines r' else [] :: phys_lines (canon r) | [] => [] :: phys_lines (canon r) end
      else match phys_lines (canon r) with l :: ls => (c :: l) :: ls | [] => [[c]] end).
    cbn [phys_lines]. rewrite IH. destruct (c =? 10); [reflexivity|].
    destruct (Z.eqb_spec c 13); [congruence|]. reflexivity.
Qed.

Lemma ends_bs_cons c d l : ends_bs (c :: d :: l) = ends_bs (d :: l).
Proof. reflexivity. Qed.

Lemma logical_cons c l ls k : c <> 92 \/ l <> [] \/ ls = [] -> logical_text k ((c :: l) :: ls) = c :: logical_text k (l :: ls).
Proof.
  intros H. destruct ls as [|l2 ls]; [reflexivity|].
  change (logical_text k ((c :: l) :: l2 :: ls)) with
    (if ends_bs (c :: l) then removelast (c :: l) ++ logical_text (S k) (l2 :: ls) else (c :: l) ++ repeat 10 (S k) ++ logical_text 0 (l2 :: ls)).
  change (logical_text k (l :: l2 :: ls)) with
    (if ends_bs l then removelast l ++ logical_text (S k) (l2 :: ls) else l ++ repeat 10 (S k) ++ logical_text 0 (l2 :: ls)).
  destruct l as [|d l].
  - cbn [ends_bs last]. unfold ends_bs. cbn [last]. destruct H as [H|[H|H]]; try congruence.
    apply Z.eqb_neq in H. rewrite H. reflexivity.
  - rewrite ends_bs_cons. destruct (ends_bs (d :: l)); reflexivity.
Qed.

Lemma remove_logical s : ~ In 0 s -> ~ In 13 s -> forall k, remove_backslash_newline2 k (s ++ [0]) = logical_text k (phys_lines s) ++ [0].
Proof.
  induction s as [|c r IH IH2] using canon_ind; intros N0 N13 k; [reflexivity|].
  assert (R0 : ~ In 0 r) by (intros X; apply N0; right; exact X).
  assert (R13 : ~ In 13 r) by (intros X; apply N13; right; exact X).
  assert (C0 : c <> 0) by (intros ->; apply N0; left; reflexivity).
  assert (C13 : c <> 13) by (intros ->; apply N13; left; reflexivity).
  cbn [app]. destruct (Z.eqb_spec c 10) as [->|C10].
  - change (remove_backslash_newline2 k (10 :: r ++ [0])) with (repeat 10 k ++ 10 :: remove_backslash_newline2 0 (r ++ [0])).
    cbn [phys_lines Z.eqb Pos.eqb]. destruct (phys_cons r) as [l [ls E]]. rewrite (IH R0 R13). rewrite E.
    change (logical_text k ([] :: l :: ls)) with ([] ++ repeat 10 (S k) ++ logical_text 0 (l :: ls)).
    cbn [app]. replace (repeat 10 (S k)) with (repeat 10 k ++ [10]) by (symmetry; apply (repeat_cons k 10)).
    rewrite <- !app_assoc. reflexivity.
  - assert (P : c <> 92 \/ (match r with d :: _ => d <> 10 | [] => True end) ->
      remove_backslash_newline2 k (c :: r ++ [0]) = logical_text k (phys_lines (c :: r)) ++ [0]).
    { intros H. transitivity (c :: remove_backslash_newline2 k (r ++ [0])).
      - cbn [remove_backslash_newline2]. apply Z.eqb_neq in C0, C10. rewrite C0, C10.
        destruct (Z.eqb_spec c 92) as [->|]; [|reflexivity]. destruct H as [H|H]; [congruence|].
        destruct r as [|d r']; cbn [app]; [reflexivity|]. apply Z.eqb_neq in H. rewrite H. reflexivity.
      - rewrite (IH R0 R13). cbn [phys_lines]. apply Z.eqb_neq in C10, C13. rewrite C10, C13.
        destruct (phys_cons r) as [l [ls E]]. rewrite E. rewrite logical_cons; [reflexivity|].
        destruct H as [H|H]; [auto|]. destruct l; [|right; left; discriminate]. right. right.
        destruct r as [|d r']; [injection E; auto|]. exfalso. cbn [phys_lines] in E. apply Z.eqb_neq in H. rewrite H in E.
        destruct (Z.eqb_spec d 13) as [->|]; [apply R13; left; reflexivity|].
        destruct (phys_lines r') ; discriminate E. }
    destruct (Z.eq_dec c 92) as [->|]; [|auto]. destruct r as [|d r']; [auto|].
    destruct (Z.eq_dec d 10) as [->|]; [|auto].
    change (remove_backslash_newline2 k (92 :: (10 :: r') ++ [0])) with (remove_backslash_newline2 (S k) (r' ++ [0])).
    rewrite (IH2 10 r' eq_refl); [|intros X; apply R0; right; exact X|intros X; apply R13; right; exact X].
    change (phys_lines (92 :: 10 :: r')) with ([92] :: phys_lines r').
    destruct (phys_cons r') as [l [ls E]]. rewrite E. reflexivity.
Qed.

Theorem phases_text s : ~ In 0 s ->
  remove_backslash_newline (canonicalize_newline (s ++ [0])) = logical_text 0 (phys_lines s) ++ [0].
Proof.
  intros N. rewrite canonicalize_canon by exact N. unfold remove_backslash_newline.
  rewrite remove_logical; [|apply canon_no0; exact N|apply canon_no13]. rewrite phys_canon. reflexivity.
Qed.

Lemma phys_no10 s l : In l (phys_lines s) -> ~ In 10 l.
Proof.
  revert l. induction s as [|c r IH IH2] using canon_ind; intros l H.
  - destruct H as [<-|[]]. intros [].
  - cbn [phys_lines] in H. destruct (Z.eqb_spec c 10); [destruct H as [<-|H]; [intros []|auto]|].
    destruct (c =? 13).
    + destruct r as [|d r']; [destruct H as [<-|H]; [intros []|auto]|].
      destruct (d =? 10); (destruct H as [<-|H]; [intros []|]); [exact (IH2 _ _ eq_refl l H)|auto].
    + destruct (phys_cons r) as [l1 [ls E]]. rewrite E in H. destruct H as [<-|H].
      * intros [X|X]; [congruence|]. apply (IH l1); [rewrite E; left; reflexivity|exact X].
      * apply IH. rewrite E. right. exact H.
Qed.

Lemma numbered_app n a b : ~ In 10 a -> numbered n (a ++ b) = map (fun c => (c, n)) a ++ numbered n b.
Proof.
  induction a as [|c a IH]; intros H; [reflexivity|]. cbn [app numbered map].
  destruct (Z.eqb_spec c 10) as [->|]; [destruct H; left; reflexivity|]. f_equal. apply IH. intros X. apply H. right. exact X.
Qed.
Lemma numbered_repeat n k b : numbered n (repeat 10 k ++ b) = numbered (n + Z.of_nat k) b.
Proof.
  revert n. induction k as [|k IH]; intros n; [cbn [repeat app]; f_equal; lia|]. cbn [repeat app numbered Z.eqb Pos.eqb]. rewrite IH.
  f_equal. lia.
Qed.
Lemma in_removelast (l : list Z) x : In x (removelast l) -> In x l.
Proof.
  induction l as [|a l IH]; [intros []|]. destruct l as [|b l]; [intros []|]. intros [->|H]; [left; reflexivity|right; auto].
Qed.

Lemma numbered_logical ls : (forall l, In l ls -> ~ In 10 l) -> forall k start,
  numbered start (logical_text k ls) = origins start (start + Z.of_nat k) ls.
Proof.
  induction ls as [|l ls IH]; intros H k start; [reflexivity|].
  assert (Hl : ~ In 10 l) by (apply H; left; reflexivity).
  assert (Hs : forall l, In l ls -> ~ In 10 l) by (intros; apply H; right; auto).
  destruct ls as [|l2 ls].
  - cbn [logical_text origins]. rewrite <- (app_nil_r l) at 1. rewrite numbered_app by exact Hl. apply app_nil_r.
  - change (logical_text k (l :: l2 :: ls)) with
      (if ends_bs l then removelast l ++ logical_text (S k) (l2 :: ls) else l ++ repeat 10 (S k) ++ logical_text 0 (l2 :: ls)).
    change (origins start (start + Z.of_nat k) (l :: l2 :: ls)) with
      (if ends_bs l then map (fun c => (c, start)) (removelast l) ++ origins start (start + Z.of_nat k + 1) (l2 :: ls)
       else map (fun c => (c, start)) l ++ origins (start + Z.of_nat k + 1) (start + Z.of_nat k + 1) (l2 :: ls)).
    destruct (ends_bs l).
    + rewrite numbered_app by (intros X; apply Hl; apply in_removelast; exact X). f_equal. rewrite IH by exact Hs. f_equal. lia.
    + rewrite numbered_app by exact Hl. f_equal. rewrite numbered_repeat, IH by exact Hs. f_equal; lia.
Qed.

Theorem lines_kept s : ~ In 0 s ->
  numbered 1 (removelast (remove_backslash_newline (canonicalize_newline (s ++ [0])))) = origins 1 1 (phys_lines s).
Proof.
  intros N. rewrite phases_text by exact N. rewrite removelast_last.
  rewrite numbered_logical by (intros l; apply phys_no10). reflexivity.
Qed.

(** Line numbers of tokens at increasing offsets. *)
Lemma add_lines_gen p : ~ In 0 p -> forall off n locs,
  (forall l, In l locs -> off <= l <= off + length p)%nat ->
  (forall i j, (i < j < length locs)%nat -> (nth i locs 0 < nth j locs 0)%nat) ->
  add_line_numbers (p ++ [0]) off n locs =
  map (fun l => n + Z.of_nat (count_occ Z.eq_dec (firstn (l - off) (p ++ [0])) 10)) locs.
Proof.
  induction p as [|c p IH]; intros N off n locs B Srt.
  - cbn [app]. destruct locs as [|l locs]; [reflexivity|]. cbn [add_line_numbers Z.eqb].
    pose proof (B l (or_introl eq_refl)) as Bl. cbn [length] in *. assert (l = off) by lia. subst l. rewrite Nat.eqb_refl.
    cbn [map]. rewrite Nat.sub_diag. cbn [firstn count_occ]. destruct locs as [|l2 locs].
    + cbn [map]. f_equal. lia.
    + exfalso. pose proof (Srt 0%nat 1%nat ltac:(cbn [length]; lia)) as Q. cbn [nth] in Q.
      pose proof (B l2 (or_intror (or_introl eq_refl))). lia.
  - destruct locs as [|l locs]; [reflexivity|]. cbn [app add_line_numbers].
    assert (Nc : c <> 0) by (intros ->; apply N; left; reflexivity).
    assert (Np : ~ In 0 p) by (intros X; apply N; right; exact X).
    apply Z.eqb_neq in Nc. rewrite Nc.
    assert (Bl := B l (or_introl eq_refl)). cbn [length] in *.
    assert (STEP : forall q, (forall x, In x q -> off < x <= off + S (length p))%nat ->
      (forall i j, (i < j < length q)%nat -> (nth i q 0 < nth j q 0)%nat) ->
      add_line_numbers (p ++ [0]) (S off) (if c =? 10 then n + 1 else n) q =
      map (fun l => n + Z.of_nat (count_occ Z.eq_dec (firstn (l - off) (c :: p ++ [0])) 10)) q).
    { intros q Bq Sq. rewrite IH; auto; [|intros x Hx; specialize (Bq x Hx); lia].
      apply map_ext_in. intros x Hx. specialize (Bq x Hx). replace (x - off)%nat with (S (x - S off)) by lia.
      cbn [firstn count_occ]. destruct (Z.eq_dec c 10) as [->|NE]; [rewrite Z.eqb_refl; lia|].
      apply Z.eqb_neq in NE. rewrite NE. reflexivity. }
    destruct (Nat.eqb_spec off l) as [->|NE].
    + cbn [map]. rewrite Nat.sub_diag. cbn [firstn count_occ]. f_equal; [lia|]. apply STEP.
      * intros x Hx. pose proof (B x (or_intror Hx)). apply In_nth with (d := 0%nat) in Hx. destruct Hx as [i [Hi <-]].
        pose proof (Srt 0%nat (S i) ltac:(cbn [length]; lia)) as Q. cbn [nth] in Q. lia.
      * intros i j Hij. apply (Srt (S i) (S j)). cbn [length]. lia.
    + apply STEP; [|exact Srt]. intros x Hx. pose proof (B x Hx). destruct Hx as [<-|Hx]; [lia|].
      apply In_nth with (d := 0%nat) in Hx. destruct Hx as [i [Hi <-]].
      pose proof (Srt 0%nat (S i) ltac:(cbn [length]; lia)) as Q. cbn [nth] in Q. lia.
Qed.

(** A text whose last line is terminated and not continued still ends with a newline. *)
Lemma logical_end ls : forall k l, ends_bs l = false -> last (logical_text k (ls ++ [l; []])) 0 = 10.
Proof.
  assert (LA : forall (a b : list Z), b <> [] -> last (a ++ b) 0 = last b 0).
  { induction a as [|x a IH]; intros b H; [reflexivity|]. cbn [app]. specialize (IH b H). destruct (a ++ b) eqn:E; [apply app_eq_nil in E; destruct E; congruence|exact IH]. }
  assert (NE : forall xs k l, ends_bs l = false -> logical_text k (xs ++ [l; []]) <> []).
  { induction xs as [|x xs IH]; intros k l E.
    - cbn [app]. change (logical_text k [l; []]) with (if ends_bs l then removelast l ++ logical_text (S k) [[]] else l ++ repeat 10 (S k) ++ logical_text 0 [[]]). rewrite E.
      intros X. apply app_eq_nil in X. destruct X as [_ X]. discriminate X.
    - cbn [app]. destruct (xs ++ [l; []]) as [|y z] eqn:Q; [destruct xs; discriminate|].
      change (logical_text k (x :: y :: z)) with (if ends_bs x then removelast x ++ logical_text (S k) (y :: z) else x ++ repeat 10 (S k) ++ logical_text 0 (y :: z)).
      rewrite <- Q. destruct (ends_bs x); intros X; apply app_eq_nil in X; destruct X as [_ X]; [exact (IH _ _ E X)|discriminate X]. }
  induction ls as [|x ls IH]; intros k l E.
  - cbn [app]. change (logical_text k [l; []]) with (if ends_bs l then removelast l ++ logical_text (S k) [[]] else l ++ repeat 10 (S k) ++ logical_text 0 [[]]). rewrite E.
    rewrite LA by discriminate. cbn [logical_text]. rewrite app_nil_r. clear. induction k as [|k IH]; [reflexivity|exact IH].
  - cbn [app]. destruct (ls ++ [l; []]) as [|y z] eqn:Q; [destruct ls; discriminate|].
    change (logical_text k (x :: y :: z)) with (if ends_bs x then removelast x ++ logical_text (S k) (y :: z) else x ++ repeat 10 (S k) ++ logical_text 0 (y :: z)).
    rewrite <- Q. destruct (ends_bs x).
    + rewrite LA by (apply NE; exact E). apply IH. exact E.
    + rewrite LA by discriminate. rewrite LA by (apply NE; exact E). apply IH. exact E.
Qed.
Lemma logical_no0 ls : (forall l, In l ls -> ~ In 0 l) -> forall k, ~ In 0 (logical_text k ls).
Proof.
  assert (RL : forall l : list Z, ~ In 0 l -> ~ In 0 (removelast l)).
  { induction l as [|x l IH]; intros H; [exact H|]. destruct l as [|y l]; [intros []|]. change (removelast (x :: y :: l)) with (x :: removelast (y :: l)).
    intros [X|X]; [apply H; left; exact X|]. apply IH; [|exact X]. intros Z. apply H. right. exact Z. }
  induction ls as [|x ls IH]; intros H k; [intros []|]. destruct ls as [|y ls]; [exact (H x (or_introl eq_refl))|].
  change (logical_text k (x :: y :: ls)) with (if ends_bs x then removelast x ++ logical_text (S k) (y :: ls) else x ++ repeat 10 (S k) ++ logical_text 0 (y :: ls)).
  assert (IH' : forall k, ~ In 0 (logical_text k (y :: ls))) by (apply IH; intros l L; apply H; right; exact L).
  destruct (ends_bs x); intros X; apply in_app_or in X; destruct X as [X|X].
  - exact (RL x (H x (or_introl eq_refl)) X).
  - exact (IH' _ X).
  - exact (H x (or_introl eq_refl) X).
  - apply in_app_or in X. destruct X as [X|X]; [apply repeat_spec in X; discriminate|exact (IH' _ X)].
Qed.
Lemma phys_no0 s : ~ In 0 s -> forall l, In l (phys_lines s) -> ~ In 0 l.
Proof.
  induction s as [|c r IH IH2] using canon_ind; intros N l H.
  - destruct H as [<-|[]]. intros [].
  - assert (R0 : ~ In 0 r) by (intros X; apply N; right; exact X). specialize (IH R0).
    cbn [phys_lines] in H. destruct (Z.eqb_spec c 10); [destruct H as [<-|H]; [intros []|auto]|].
    destruct (c =? 13).
    + destruct r as [|d r']; [destruct H as [<-|H]; [intros []|auto]|].
      destruct (d =? 10); (destruct H as [<-|H]; [intros []|]); [|auto]. eapply (IH2 d r' eq_refl); [|exact H]. intros X. apply R0. right. exact X.
    + destruct (phys_lines r) as [|l0 ls]; [destruct H as [<-|[]]; intros [X|[]]; apply N; left; exact X|].
      destruct H as [<-|H]; [|apply IH; right; exact H]. intros [X|X]; [apply N; left; exact X|]. exact (IH l0 (or_introl eq_refl) X).
Qed.
