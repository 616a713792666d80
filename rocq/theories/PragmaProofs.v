(** Proofs about _Pragma. *)
From Coq Require Import ZArith List Bool Lia.
From Verif Require Import Base LexModel PrintSpec PragmaSpec PragmaModel.
Import ListNotations.
Local Open Scope Z_scope.

Lemma mid : forall (body : list Z), firstn (length (34 :: body ++ [34]) - 2) (skipn 1 (34 :: body ++ [34])) = body.
Proof.
  intros body. cbn [skipn length]. rewrite app_length. cbn [length]. replace (S (length body + 1) - 2)%nat with (length body) by lia.
  rewrite firstn_app, Nat.sub_diag, firstn_all, firstn_O, app_nil_r. reflexivity.
Qed.
Lemma buf_ok : forall body, pragma_buf (34 :: body ++ [34]) = Ok (pragma_word ++ body ++ [0]).
Proof.
  intros body. unfold pragma_buf. rewrite mid.
  assert (L : length (34 :: body ++ [34]) = (length body + 2)%nat) by (cbn [length]; rewrite app_length; cbn [length]; lia).
  rewrite L. destruct (Nat.ltb_spec (length body + 2) 2); [lia|]. replace (length body + 2 + 7)%nat with (8 + (length body + 1))%nat by lia.
  rewrite repeat_app. unfold memcpy at 1. rewrite app_length, !repeat_length. change (length pragma_word) with 8%nat.
  destruct (Nat.leb_spec (0 + 8) (8 + (length body + 1))); [|lia]. cbn [bind firstn app].
  replace (skipn (0 + 8) (repeat 0 8 ++ repeat 0 (length body + 1))) with (repeat 0 (length body + 1)) by reflexivity.
  unfold memcpy. rewrite app_length, repeat_length. change (length pragma_word) with 8%nat. destruct (Nat.leb_spec (8 + length body) (8 + (length body + 1))); [|lia].
  rewrite repeat_app. change (firstn 8 (pragma_word ++ repeat 0 (length body) ++ repeat 0 1)) with pragma_word. do 2 f_equal.
  change (skipn (8 + length body) (pragma_word ++ repeat 0 (length body) ++ repeat 0 1)) with (skipn (length body) (repeat 0 (length body) ++ repeat 0 1)).
  rewrite skipn_app, repeat_length, Nat.sub_diag, skipn_all2 by (rewrite repeat_length; lia). reflexivity.
Qed.
(** In bounds whatever the literal is. *)
Theorem buf_bounds : forall lit, pragma_buf lit <> UB.
Proof.
  intros lit. unfold pragma_buf. destruct (Nat.ltb_spec (length lit) 2); [discriminate|]. unfold memcpy at 1. rewrite repeat_length. change (length pragma_word) with 8%nat.
  destruct (Nat.leb_spec (0 + 8) (length lit + 7)); [|lia]. cbn [bind firstn app].
  unfold memcpy. rewrite app_length, skipn_length, repeat_length. change (length pragma_word) with 8%nat. rewrite firstn_length, skipn_length.
  destruct (Nat.leb_spec (8 + Nat.min (length lit - 2) (length lit - 1)) (8 + (length lit + 7 - (0 + 8)))); [discriminate|lia].
Qed.
Lemma cstr_app : forall s, ~ In 0 s -> cstr (s ++ [0]) = s ++ [0].
Proof.
  induction s as [|c s IH]; intros N; [reflexivity|]. cbn [app cstr]. destruct (Z.eqb_spec c 0) as [->|]; [destruct N; left; reflexivity|].
  rewrite IH; [reflexivity|]. intros K. apply N. right. exact K.
Qed.
Lemma unescape_plain : forall s, ~ In 92 s -> unescape s = s.
Proof.
  induction s as [|c s IH]; intros N; [reflexivity|]. assert (NS : ~ In 92 s) by (intros K; apply N; right; exact K).
  assert (U : unescape (c :: s) = c :: unescape s).
  { destruct (Z.eq_dec c 92) as [->|NC]; [destruct N; left; reflexivity|]. cbn [unescape]. 
    destruct c as [|c|c]; try reflexivity. do 7 (destruct c as [c|c|]; try reflexivity). congruence. }
  rewrite U, (IH NS). reflexivity.
Qed.
Theorem pragma_ok : forall o body text v, ~ In 92 body -> ~ In 0 body -> destringized (34 :: body ++ [34]) text ->
  reads o (pragma_word ++ text) v -> pragma_macro o (34 :: body ++ [34]) = Ok v.
Proof.
  intros o body text v N92 N0 [p [b [IP [E T]]]] [toks [e [TK [KE MP]]]].
  assert (P0 : p = [] /\ b = body).
  { unfold prefixes in IP. cbn [In] in IP. destruct IP as [<-|[<-|[<-|[<-|[<-|[]]]]]]; cbn [app] in E; try discriminate E. injection E as E. apply app_inj_tail in E. destruct E as [-> _]. split; reflexivity. }
  destruct P0 as [_ ->]. rewrite (unescape_plain _ N92) in T. subst text.
  unfold pragma_macro. rewrite buf_ok. cbn [bind]. rewrite app_assoc, cstr_app.
  - rewrite TK. cbn [bind]. rewrite removelast_last, MP. reflexivity.
  - intros K. apply in_app_or in K. destruct K as [K|K]; [|exact (N0 K)]. unfold pragma_word in K. cbn [In] in K. lia.
Qed.
