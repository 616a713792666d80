(** Proofs about the arguments of options. *)
From Coq Require Import ZArith List Bool Lia.
From Verif Require Import Base CliModel CliProofs DrvModel DrvProofs OptSpec OptModel.
Import ListNotations.
Local Open Scope Z_scope.

Lemma starts_iff : forall str a p, startswith a str = Some p <-> a = str ++ p.
Proof.
  induction str as [|y s IH]; intros a p; [destruct a; cbn [startswith app]; split; congruence|].
  destruct a as [|x a]; cbn [startswith app]; [split; discriminate|]. destruct (Z.eqb_spec x y) as [->|N].
  - rewrite IH. split; [intros ->; reflexivity|intros E; injection E as E; exact E].
  - split; [discriminate|]. intros E. injection E as E _. contradiction.
Qed.

Lemma to_comma_end : forall a, ~ In 44 a -> to_comma a = (a, []).
Proof.
  induction a as [|c a IH]; intros N; [reflexivity|]. cbn [to_comma]. destruct (Z.eqb_spec c 44) as [->|]; [destruct N; left; reflexivity|].
  rewrite IH by (intros K; apply N; right; exact K). reflexivity.
Qed.
Lemma to_comma_mid : forall a s, ~ In 44 a -> to_comma (a ++ 44 :: s) = (a, s).
Proof.
  induction a as [|c a IH]; intros s N; [reflexivity|]. cbn [app to_comma]. destruct (Z.eqb_spec c 44) as [->|]; [destruct N; left; reflexivity|].
  rewrite IH by (intros K; apply N; right; exact K). reflexivity.
Qed.
Lemma skip_id : forall c s, c <> 44 -> skip_commas (c :: s) = c :: s.
Proof. intros c s N. cbn [skip_commas]. destruct (Z.eqb_spec c 44); [contradiction|reflexivity]. Qed.
Lemma loop_skip : forall fuel s, comma_loop fuel (44 :: s) = comma_loop fuel s.
Proof. intros [|f] s; reflexivity. Qed.

Lemma loop_ok : forall l s, joined l s -> forall fuel, (length s <= fuel)%nat -> comma_loop fuel s = Ok (nonempty l).
Proof.
  induction 1 as [a N|a l s N J IH]; intros fuel F.
  - destruct a as [|c a]; [destruct fuel; reflexivity|]. destruct fuel as [|fuel]; [cbn in F; lia|].
    assert (NC : c <> 44) by (intros ->; apply N; left; reflexivity).
    cbn [comma_loop]. unfold strtok. rewrite skip_id by exact NC. rewrite to_comma_end by exact N. destruct fuel; reflexivity.
  - destruct a as [|c a].
    + cbn [app] in *. rewrite loop_skip. cbn [length] in F. rewrite IH by lia. reflexivity.
    + destruct fuel as [|fuel]; [cbn in F; lia|]. assert (NC : c <> 44) by (intros ->; apply N; left; reflexivity).
      cbn [comma_loop]. unfold strtok. change ((c :: a) ++ 44 :: s) with (c :: (a ++ 44 :: s)). rewrite skip_id by exact NC.
      change (c :: (a ++ 44 :: s)) with ((c :: a) ++ 44 :: s). rewrite to_comma_mid by exact N.
      rewrite app_length in F. cbn [length] in F. rewrite IH by lia. reflexivity.
Qed.
Theorem comma_ok : forall str l s, joined l s -> comma_arg (str ++ s) str = Ok (Some (nonempty l)).
Proof.
  intros str l s J. unfold comma_arg. rewrite (proj2 (starts_iff str (str ++ s) s) eq_refl). rewrite (loop_ok _ _ J) by lia. reflexivity.
Qed.
Theorem joined_total : forall s, exists l, joined l s.
Proof.
  induction s as [|c s [l J]]; [exists [[]]; constructor; intros []|]. destruct (Z.eq_dec c 44) as [->|N].
  - exists ([] :: l). apply (j_more [] l s); [intros []|exact J].
  - destruct J as [a NA|a l s NA J]; [exists [c :: a]; constructor|exists ((c :: a) :: l); apply (j_more (c :: a)); [|exact J]]; intros [K|K]; contradiction.
Qed.
Theorem comma_other : forall arg str, (forall s, arg <> str ++ s) -> comma_arg arg str = Ok None.
Proof.
  intros arg str N. unfold comma_arg. destruct (startswith arg str) as [p|] eqn:E; [|reflexivity]. apply starts_iff in E. destruct (N p E).
Qed.

Lemma nth_at : forall (pre : list (list Z)) l k, nth_error (pre ++ l) (length pre + k) = nth_error l k.
Proof. intros pre l k. rewrite nth_error_app2 by lia. f_equal. lia. Qed.

(** Both ways to give a value are understood, and the index is left at the last argument used. *)
Theorem take_ok : forall pre args opt v used, has_value opt args v used ->
  take_arg_s (pre ++ args) (length pre) opt = Ok (Some (v, length pre + used - 1)%nat).
Proof.
  intros pre args opt v used H. unfold take_arg_s, take_arg.
  assert (E0 := nth_at pre args 0). rewrite Nat.add_0_r in E0. assert (E1 := nth_at pre args 1). rewrite Nat.add_1_r in E1. rewrite E0, E1.
  destruct H as [v r|v r NV]; cbn [nth_error].
  - rewrite bytes_eq_refl. cbn [negb bind]. do 4 f_equal. lia.
  - destruct (bytes_eq (opt ++ v) opt) eqn:B.
    + apply bytes_eq_iff in B. rewrite <- (app_nil_r opt) in B at 2. apply app_inv_head in B. contradiction.
    + cbn [negb bind]. rewrite (proj2 (starts_iff opt (opt ++ v) v) eq_refl). do 4 f_equal. lia.
Qed.
(** And nothing else is taken for the option. *)
Theorem take_sound : forall pre args opt v j, take_arg_s (pre ++ args) (length pre) opt = Ok (Some (v, j)) ->
  exists used, has_value opt args v used /\ j = (length pre + used - 1)%nat.
Proof.
  intros pre args opt v j. unfold take_arg_s, take_arg.
  assert (E0 := nth_at pre args 0). rewrite Nat.add_0_r in E0. assert (E1 := nth_at pre args 1). rewrite Nat.add_1_r in E1. rewrite E0, E1.
  destruct args as [|a args]; cbn [nth_error]; [discriminate|]. destruct (bytes_eq a opt) eqn:B; cbn [negb].
  - apply bytes_eq_iff in B. subst a. destruct args as [|w r]; [discriminate|]. cbn [bind]. intros H. injection H as <- <-.
    exists 2%nat. split; [constructor|lia].
  - cbn [bind]. destruct (startswith a opt) as [p|] eqn:S; [|discriminate]. intros H. injection H as <- <-. apply starts_iff in S. subst a.
    exists 1%nat. split; [constructor|lia]. intros ->. rewrite app_nil_r, bytes_eq_refl in B. discriminate B.
Qed.
(** The option alone at the end is an error; an index in the arguments is never run past their end. *)
Theorem take_missing : forall pre opt, take_arg_s (pre ++ [opt]) (length pre) opt = Abort.
Proof.
  intros pre opt. unfold take_arg_s, take_arg.
  assert (E0 := nth_at pre [opt] 0). rewrite Nat.add_0_r in E0. assert (E1 := nth_at pre [opt] 1). rewrite Nat.add_1_r in E1. rewrite E0, E1.
  cbn [nth_error]. rewrite bytes_eq_refl. reflexivity.
Qed.
Theorem take_bounds : forall argv i opt, (i < length argv)%nat ->
  take_arg_s argv i opt <> UB /\ (forall v j, take_arg_s argv i opt = Ok (Some (v, j)) -> (j < length argv)%nat).
Proof.
  intros argv i opt L. unfold take_arg_s, take_arg. destruct (nth_error argv i) as [a|] eqn:E; [|apply nth_error_None in E; lia].
  destruct (bytes_eq a opt); cbn [negb].
  - destruct (nth_error argv (S i)) as [w|] eqn:E1; cbn [bind]; split; try discriminate. intros v j H. injection H as _ <-. apply nth_error_Some. congruence.
  - cbn [bind]. destruct (startswith a opt); split; try discriminate. intros v j H. injection H as _ <-. exact L.
Qed.
