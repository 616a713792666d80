(** The ## operator: pasting two tokens with the tokenizer of LexModel. *)
From Coq Require Import Ascii String ZArith List Bool Lia.
From Verif Require Import Base UnicodeTables UnicodeSpec LexSpec LexModel LexSafe LexProofs LexTok.
From Verif Require Import PpSpec MacSpec MacModel MacPasteModel MacProofs.
Import ListNotations.
Local Open Scope string_scope.
Local Open Scope list_scope.

Lemma bytes_app a b : bytes_of (a ++ b) = bytes_of a ++ bytes_of b.
Proof. unfold bytes_of. induction a as [|c a IH]; [reflexivity|]. cbn [append list_ascii_of_string map app]. rewrite IH. reflexivity. Qed.
Lemma bytes_range s : bytes (bytes_of s).
Proof.
  unfold bytes, bytes_of. apply Forall_forall. intros x H. apply in_map_iff in H. destruct H as [c [<- _]]. pose proof (nat_ascii_bounded c). lia.
Qed.
Lemma bytes_len s : length (bytes_of s) = String.length s.
Proof. unfold bytes_of. rewrite map_length. induction s; cbn [list_ascii_of_string length String.length]; auto. Qed.
Lemma cstr_spec p : exists b, cstr (p ++ [0%Z]) = b ++ [0%Z] /\ ~ In 0%Z b /\ (length b <= length p)%nat /\ (length b = length p -> b = p).
Proof.
  induction p as [|c p [b [E [N [L Q]]]]]; [exists []; repeat split; auto|]. cbn [app cstr]. destruct (Z.eqb_spec c 0) as [->|NZ].
  - exists []. cbn [length app]. repeat split; auto; [lia|discriminate].
  - exists (c :: b). cbn [length app]. rewrite E. repeat split; [|lia|].
    + intros [H|H]; [congruence|exact (N H)].
    + intros H. f_equal. apply Q. lia.
Qed.

(** A token of more than one byte does not start with an opening parenthesis nor end in a closing one. *)
Local Open Scope Z_scope.
Definition np (c : Z) : Prop := c <> 40 /\ c <> 41.
Definition wfit (p : list Z) (n : nat) : Prop := (n <= length p)%nat.
Lemma id_char_last asm first p n : id_char asm first p n -> (0 < n)%nat /\ wfit p n /\ np (last (firstn n p) 0) /\ np (hd 0 p).
Proof.
  unfold wfit, np. inversion 1; subst.
  - cbn [firstn last hd length]. repeat split; try lia; intros ->; cbn in H0; destruct asm; discriminate.
  - rewrite firstn_app, firstn_all, Nat.sub_diag, app_nil_r, app_length. destruct H0; cbn [length last hd app] in *; unfold cont in *; repeat split; lia.
Qed.
Lemma last_split n k (p : list Z) : (n + k <= length p)%nat -> (0 < k)%nat -> last (firstn (n + k) p) 0 = last (firstn k (skipn n p)) 0.
Proof.
  intros L K. rewrite <- (firstn_skipn n p) at 1. rewrite firstn_app, firstn_length, Nat.min_l by lia. replace (n + k - n)%nat with k by lia.
  rewrite firstn_firstn, Nat.min_r by lia. assert (NE : firstn k (skipn n p) <> []) by (intros H; apply (f_equal (@length Z)) in H; rewrite firstn_length, skipn_length in H; cbn in H; lia).
  revert NE. generalize (firstn k (skipn n p)) (firstn n p). intros a b NE. destruct a as [|x a]; [congruence|]. induction b as [|y b IH]; [reflexivity|]. cbn [app]. rewrite <- IH. destruct b; reflexivity.
Qed.
Lemma ids_last asm first p n : id_chars asm first p n -> wfit p n /\ ((0 < n)%nat -> np (last (firstn n p) 0) /\ np (hd 0 p)).
Proof.
  unfold wfit. induction 1 as [first p N|first p k n C I0 [W IH]]; [split; lia|]. destruct (id_char_last _ _ _ _ C) as [K [W1 [L1 H1]]]. unfold wfit in W1. rewrite skipn_length in W.
  split; [lia|]. intros _. split; [|exact H1]. destruct n as [|n]; [rewrite Nat.add_0_r; exact L1|]. rewrite last_split by lia. apply IH. lia.
Qed.
Lemma piece_last asm p n : num_piece asm p n -> (0 < n)%nat /\ wfit p n /\ np (last (firstn n p) 0).
Proof.
  unfold wfit. inversion 1; subst; cbn [firstn last length].
  - unfold np. lia.
  - repeat split; try lia; intros ->; discriminate.
  - repeat split; try lia; intros ->; cbn in *; intuition lia.
  - destruct (id_char_last _ _ _ _ H0) as [A [B [C D]]]. auto.
Qed.
Lemma nums_last asm p n : num_rest asm p n -> wfit p n /\ ((0 < n)%nat -> np (last (firstn n p) 0)).
Proof.
  unfold wfit. induction 1 as [p N|p k n C I0 [W IH]]; [split; lia|]. destruct (piece_last _ _ _ C) as [K [W1 L1]]. unfold wfit in W1. rewrite skipn_length in W.
  split; [lia|]. intros _. destruct n as [|n]; [rewrite Nat.add_0_r; exact L1|]. rewrite last_split by lia. apply IH. lia.
Qed.
Lemma digit_np c : digit c = true -> np c.
Proof. unfold digit, np. lia. Qed.
Lemma punct_ends (asm : bool) (a : list Z) : In a (puncts ++ stray ++ (if asm then [[36]] else [])) -> (2 <= length a)%nat -> np (hd 0 a) /\ np (last a 0).
Proof.
  intros H. assert (F : forallb (fun a => Nat.ltb (length a) 2 || negb (hd 0 a =? 40) && negb (hd 0 a =? 41) && negb (last a 0 =? 40) && negb (last a 0 =? 41)) (puncts ++ stray ++ (if asm then [[36]] else [])) = true) by (destruct asm; vm_compute; reflexivity).
  rewrite forallb_forall in F. specialize (F a H). intros L. apply orb_true_iff in F. destruct F as [F|F]; [apply Nat.ltb_lt in F; lia|]. unfold np. lia.
Qed.
Lemma prefix_firstn a p : is_prefix a p = true -> firstn (length a) p = a.
Proof.
  revert p. induction a as [|x a IH]; intros p; [reflexivity|]. destruct p as [|y p]; [discriminate|]. cbn [is_prefix length firstn]. intros H. apply andb_true_iff in H. destruct H as [E H]. apply Z.eqb_eq in E. subst. f_equal. auto.
Qed.
Lemma last_app1 (a : list Z) x d : last (a ++ [x]) d = x.
Proof. induction a as [|y a IH]; [reflexivity|]. cbn [app]. rewrite <- IH at 2. destruct a; reflexivity. Qed.
Lemma lexes_ends asm w r k : lexes asm (w ++ r) k (length w) -> (2 <= length w)%nat -> np (hd 0 w) /\ np (last w 0).
Proof.
  intros H L. assert (HD : hd 0 (w ++ r) = hd 0 w) by (destruct w; [cbn in L; lia|reflexivity]). assert (FW : firstn (length w) (w ++ r) = w) by (rewrite firstn_app, firstn_all, Nat.sub_diag, app_nil_r; reflexivity).
  rewrite <- HD. rewrite <- FW at 2. clear HD FW. revert H L. generalize (w ++ r) (length w). clear w r. intros p n H L. destruct H.
  - split; [apply digit_np; exact H|]. destruct (nums_last _ _ _ H0) as [W P]. specialize (P ltac:(lia)). change (S n) with (1 + n)%nat. rewrite last_split; [exact P|unfold wfit in W; cbn [length]; lia|lia].
  - split; [unfold np; cbn [hd]; lia|]. destruct (nums_last _ _ _ H0) as [W P]. destruct n as [|n]; [apply digit_np; exact H|]. specialize (P ltac:(lia)).
    change (S (S (S n))) with (2 + S n)%nat. rewrite last_split; [exact P|unfold wfit in W; cbn [length]; lia|lia].
  - destruct H1 as [[a [IA [PA LA]]] _]. subst n. destruct (punct_ends _ _ IA L) as [A B]. pose proof (prefix_firstn _ _ PA) as F. rewrite F. split; [|exact B].
    destruct a as [|x a]; [cbn in L; lia|]. destruct p as [|y p]; [discriminate|]. cbn [length firstn] in F. injection F as -> _. exact A.
  - assert (E : firstn (length pre + length body + 2) (pre ++ 34 :: body ++ 34 :: r) = (pre ++ 34 :: body) ++ [34]).
    { replace (pre ++ 34 :: body ++ 34 :: r) with (((pre ++ 34 :: body) ++ [34]) ++ r) by (rewrite <- !app_assoc; reflexivity).
      replace (length pre + length body + 2)%nat with (length ((pre ++ 34 :: body) ++ [34])) by (rewrite !app_length; cbn [length]; lia). rewrite firstn_app, firstn_all, Nat.sub_diag, app_nil_r. reflexivity. }
    rewrite E, last_app1. unfold np; split; [|lia]. destruct H; cbn [hd app]; lia.
  - assert (E : firstn (length pre + length one + length junk + 2) (pre ++ 39 :: one ++ junk ++ 39 :: r) = (pre ++ 39 :: one ++ junk) ++ [39]).
    { replace (pre ++ 39 :: one ++ junk ++ 39 :: r) with (((pre ++ 39 :: one ++ junk) ++ [39]) ++ r) by (rewrite <- !app_assoc; cbn [app]; rewrite <- !app_assoc; reflexivity).
      replace (length pre + length one + length junk + 2)%nat with (length ((pre ++ 39 :: one ++ junk) ++ [39])) by (rewrite !app_length; cbn [length]; rewrite !app_length; lia). rewrite firstn_app, firstn_all, Nat.sub_diag, app_nil_r. reflexivity. }
    rewrite E, last_app1. unfold np; split; [|lia]. destruct H; cbn [hd app]; lia.
  - destruct (ids_last _ _ _ _ H1) as [W P]. destruct (P H0) as [P1 P2]. auto.
Qed.
Local Close Scope Z_scope.

Lemma paste_whole o a b t : paste_lex o a b = Ok t ->
  exists x y k, bytes_of (mtext a) = x /\ bytes_of (mtext b) = y /\ x <> [] /\ y <> [] /\ lexes (asm_pp o) ((x ++ y) ++ [0%Z]) k (length (x ++ y)) /\ mtext t = (mtext a ++ mtext b)%string /\ ttext t = mtext t.
Proof.
  unfold paste_lex. destruct (String.eqb_spec (mtext a) "") as [|NA]; [discriminate|]. destruct (String.eqb_spec (mtext b) "") as [|NB]; [discriminate|]. cbn [orb].
  assert (Y1 : bytes_of (mtext a) <> []) by (destruct (mtext a); [congruence|discriminate]). assert (Y2 : bytes_of (mtext b) <> []) by (destruct (mtext b); [congruence|discriminate]).
  destruct (cstr_spec (bytes_of (mtext a ++ mtext b))) as [c [EC [NC [LC QC]]]]. rewrite EC. destruct (tokenize o (c ++ [0%Z])) as [l| |] eqn:TK; try discriminate.
  destruct l as [|k [|e [|]]]; try discriminate. destruct (Nat.eqb_spec (tlen k) (String.length (mtext a ++ mtext b))) as [LK|]; [|discriminate]. intros H. injection H as <-.
  rewrite <- bytes_len in LK.
  pose proof (tokenize_tokens o c [k; e] NC) as T.
  assert (BC : bytes (c ++ [0%Z])).
  { rewrite <- EC. clear. pose proof (bytes_range (mtext a ++ mtext b)) as B. induction B as [|x l Hx B IH]; cbn [app cstr]; [repeat constructor; lia|]. destruct (Z.eqb_spec x 0); [repeat constructor; lia|constructor; [exact Hx|exact IH]]. }
  specialize (T BC TK). cbn [map] in T. inversion T; subst. 
  match goal with [ E : g ++ w ++ r = c ++ [0%Z] |- _ ] => rename E into EG end.
  match goal with [ E : tokens _ _ _ _ r _ |- _ ] => pose proof (tokens_len _ _ _ _ _ _ E) as LR end.
  match goal with [ E : length w = tlen k |- _ ] => rename E into LW | [ E : tlen k = length w |- _ ] => symmetry in E; rename E into LW end.
  assert (LG := f_equal (@length Z) EG). rewrite !app_length in LG. cbn [length] in LG.
  assert (g = []) by (destruct g; [reflexivity|cbn [length] in LG; lia]). subst g. cbn [app length] in *.
  assert (length c = length (bytes_of (mtext a ++ mtext b))) by lia. rewrite (QC H) in *. rewrite bytes_app in EG.
  exists (bytes_of (mtext a)), (bytes_of (mtext b)). eexists. repeat split; auto.
  - rewrite <- EG. rewrite <- (bytes_app (mtext a)), <- LK, <- LW. eassumption.
  - cbn [ttext mkind mtext]. destruct (LexModel.kind k); reflexivity.
Qed.
Lemma paste_lex_ok o : paste_ok (paste_lex o).
Proof.
  intros a b t H. destruct (paste_whole _ _ _ _ H) as [x [y [k [EX [EY [NX [NY [LX [TX TT]]]]]]]]].
  assert (L2 : (2 <= length (x ++ y))%nat) by (destruct x, y; try congruence; rewrite app_length; cbn [length]; lia).
  destruct (lexes_ends _ _ _ _ LX L2) as [HD LS].
  assert (I1 : forall s v, isp s = true -> bytes_of (mtext s) = v -> v = [40%Z] \/ v = [41%Z]).
  { intros s v. unfold isp, eqt, ttext. destruct (mkind s); cbn [String.eqb orb]; try discriminate; intros E <-; apply orb_true_iff in E; (destruct E as [E|E]; apply String.eqb_eq in E; rewrite E; [left|right]; reflexivity). }
  assert (LST : forall v, last (v ++ y) 0%Z = last y 0%Z).
  { intros v. destruct y as [|d y]; [congruence|]. clear. induction v as [|z v IH]; [reflexivity|]. cbn [app]. rewrite <- IH. destruct v; reflexivity. }
  assert (TT' : bytes_of (mtext t) = x ++ y) by (rewrite TX, bytes_app; congruence).
  repeat split; apply not_true_is_false; intros P; (destruct (I1 _ _ P eq_refl) as [E|E]; [|]); try (rewrite EX in E); try (rewrite EY in E); try (rewrite TT' in E; rewrite E in L2; cbn [length] in L2; lia); subst.
  all: try (destruct HD as [N1 N2]; rewrite E in N1, N2; cbn [hd app] in N1, N2; congruence); rewrite LST, E in LS; destruct LS as [N1 N2]; cbn [last] in N1, N2; congruence.
Qed.
Lemma paste_lex_no_ub o a b : paste_lex o a b <> UB.
Proof.
  unfold paste_lex. destruct (_ || _); [discriminate|]. destruct (tokenize _ _) as [[|t [|e [|]]]| |]; try discriminate. destruct (Nat.eqb _ _); discriminate.
Qed.
