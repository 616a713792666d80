(** Proofs of C59: values of pointer arithmetic, examples and refutations. *)
From Coq Require Import String ZArith List Bool Lia.
From Verif Require Import CompatSpec CompatModel CompatProofs TypSpec TypModel TypProofs TypCases.
Import ListNotations.
Local Open Scope string_scope.
Local Open Scope Z_scope.
Local Open Scope list_scope.

Lemma types_ok : forall members defined rsize zero opt,
  (forall i, NoDup (flat_map names (members i))) -> (forall i, defined i = true -> 0 <= rsize i) ->
  forall e s, typed members defined zero false e s ->
  exists n, elab members rsize zero opt e = Ok n /\ nt n = st s /\ (lv s = true -> nq n = sq s) /\ nbf n = sbf s /\ is_nullptr n = snull s.
Proof.
  intros members defined rsize zero opt U S e s H. destruct (elab_ok members defined rsize zero opt U S e s H) as (n & E & G).
  exists n. split; [exact E|]. destruct G. auto.
Qed.
Lemma types_unique : forall members defined zero, (forall i, NoDup (flat_map names (members i))) ->
  forall e s s', typed members defined zero false e s -> typed members defined zero false e s' ->
  st s = st s' /\ sbf s = sbf s' /\ snull s = snull s' /\ (lv s = true -> lv s' = true -> sq s = sq s').
Proof.
  intros members defined zero U e s s' H H'.
  destruct (types_ok members defined (fun _ => 0) zero true U (fun _ _ => Z.le_refl 0) e s H) as (n & E & A1 & A2 & A3 & A4).
  destruct (types_ok members defined (fun _ => 0) zero true U (fun _ _ => Z.le_refl 0) e s' H') as (n' & E' & B1 & B2 & B3 & B4).
  rewrite E in E'. injection E' as <-. split; [congruence|]. split; [congruence|]. split; [congruence|].
  intros L L'. rewrite <- (A2 L). apply (B2 L').
Qed.

(** * What C accepts is what the judgement with [ext] accepts *)
Scheme typed_mut := Minimality for typed Sort Prop
with arguments_mut := Minimality for arguments Sort Prop
with chosen_mut := Minimality for chosen Sort Prop
with associations_mut := Minimality for associations Sort Prop.
Lemma binary_more : forall d o a b t, binary d false o a b t -> binary d true o a b t.
Proof.
  intros d o a b t H. destruct H;
    [ eapply b_arith | eapply b_int | eapply b_shift | eapply b_ptr_int | eapply b_int_ptr | eapply b_ptr_ptr | eapply b_cmp_arith
    | eapply b_cmp_ptr | eapply b_eq_void | eapply b_eq_null_r | eapply b_eq_null_l | eapply b_log ]; eauto; left; reflexivity.
Qed.
Lemma choice_more : forall a b t, choice false a b t -> choice true a b t.
Proof.
  intros a b t H. destruct H;
    [ eapply c_arith | eapply c_rec | eapply c_void | eapply c_ptr | eapply c_null_r | eapply c_null_l | eapply c_ptr_void ]; eauto; left; reflexivity.
Qed.
Lemma typed_more : forall members defined zero e s, typed members defined zero false e s -> typed members defined zero true e s.
Proof.
  intros members defined zero.
  apply (typed_mut members defined zero false (typed members defined zero true) (arguments members defined zero true)
           (chosen members defined zero true) (associations members defined zero true)); intros;
    try solve [econstructor; eauto using binary_more, choice_more; try (left; reflexivity)].
  eapply ass_cons; eauto. destruct t as [[? ?]|]; auto. destruct H1 as [H1 _]. split; [exact H1 | left; reflexivity].
Qed.

(** * Values *)
Lemma conv_mod : forall n u z, 0 < n -> (conv_bits n u z) mod 2 ^ n = z mod 2 ^ n.
Proof.
  intros n u z H. unfold conv_bits. assert (P : 0 < 2 ^ n) by (apply Z.pow_pos_nonneg; lia).
  destruct (negb u && (2 ^ (n - 1) <=? z mod 2 ^ n)); [|apply Z.mod_mod; lia].
  rewrite <- (Z.mod_add (z mod 2 ^ n - 2 ^ n) 1) by lia. replace (z mod 2 ^ n - 2 ^ n + 1 * 2 ^ n) with (z mod 2 ^ n) by lia. apply Z.mod_mod. lia.
Qed.
Lemma conv_id : forall n z, 0 < n -> - 2 ^ (n - 1) <= z < 2 ^ (n - 1) -> conv_bits n false z = z.
Proof.
  intros n z H R. unfold conv_bits. cbn [negb andb].
  assert (E : 2 ^ n = 2 * 2 ^ (n - 1)). { replace n with (1 + (n - 1)) at 1 by lia. rewrite Z.pow_add_r by lia. reflexivity. }
  destruct (Z.neg_nonneg_cases z).
  - replace (z mod 2 ^ n) with (z + 2 ^ n). 2:{ symmetry. rewrite <- (Z.mod_add z 1) by lia. rewrite Z.mul_1_l. apply Z.mod_small. lia. }
    destruct (Z.leb_spec (2 ^ (n - 1)) (z + 2 ^ n)); lia.
  - rewrite Z.mod_small by lia. destruct (Z.leb_spec (2 ^ (n - 1)) z); lia.
Qed.
Lemma scaled_wide : forall opt n t, integer (nt n) = true -> fits (nt n) (nbf n) = true ->
  exists m, scaled opt n t = Ok m /\ isize (nt m) = 8.
Proof.
  intros opt n t I F. unfold scaled.
  destruct (promo_wide _ _ I F) as (k & u & P & R).
  set (s := match t with CVla _ _ => ty_ulong | _ => ty_long end).
  assert (S : s = ty_ulong \/ s = ty_long) by (unfold s; destruct t; auto).
  assert (X : exists v, uac (promo (nt n) (nbf n)) (promo s None) = Some v /\ isize v = 8).
  { rewrite P. destruct S as [-> | ->]; destruct k; cbn [rank] in R; try lia; destruct u; eexists; split; reflexivity. }
  destruct X as (v & U & W).
  destruct (arith_node_ok opt n (mk noq s) v) as (q & E); auto.
  - apply integer_arith, I.
  - destruct S as [-> | ->]; reflexivity.
  - eexists. split; [exact E | exact W].
Qed.
Lemma offset_ok : forall opt n t i sz, integer (nt n) = true -> fits (nt n) (nbf n) = true ->
  exists v, offset_value opt n t i sz = Ok v /\ v mod 2 ^ 64 = (i * sz) mod 2 ^ 64.
Proof.
  intros opt n t i sz I F. destruct (scaled_wide opt n t I F) as (m & E & W).
  unfold offset_value. rewrite E. cbn [bind]. eexists. split; [reflexivity|]. unfold conv. rewrite W.
  change (8 * 8) with 64. rewrite conv_mod by lia.
  rewrite Z.mul_mod by (cbv; discriminate). rewrite !conv_mod by lia. rewrite <- Z.mul_mod by (cbv; discriminate). reflexivity.
Qed.
Lemma add_value_ok : forall opt n t p i sz, integer (nt n) = true -> fits (nt n) (nbf n) = true ->
  add_value opt p n t i sz = Ok ((p + i * sz) mod 2 ^ 64) /\ sub_value opt p n t i sz = Ok ((p - i * sz) mod 2 ^ 64).
Proof.
  intros opt n t p i sz I F. destruct (offset_ok opt n t i sz I F) as (v & E & M). unfold add_value, sub_value. rewrite E. cbn [bind]. unfold wrap64.
  split; f_equal.
  - rewrite Z.add_mod by (cbv; discriminate). rewrite M. rewrite <- Z.add_mod by (cbv; discriminate). reflexivity.
  - rewrite Zminus_mod, M, <- Zminus_mod. reflexivity.
Qed.
Lemma diff_ok : forall p sz k, 0 < sz < 2 ^ 31 -> - 2 ^ 63 <= k * sz < 2 ^ 63 -> diff_value (p + k * sz) p sz = Ok k.
Proof.
  intros p sz k S K. unfold diff_value, conv. cbn [ty_int ty_long isize is_unsigned]. change (8 * 4) with 32. change (8 * 8) with 64.
  assert (E : conv_bits 32 false sz = sz). { apply conv_id; [lia|]. change (2 ^ (32 - 1)) with 2147483648. change (2 ^ 31) with 2147483648 in S. lia. }
  rewrite E. destruct (Z.eqb_spec sz 0); [lia|].
  assert (D : conv_bits 64 false (conv_bits 64 false (p + k * sz) - conv_bits 64 false p) = k * sz).
  { assert (M : forall x y, x mod 2 ^ 64 = y mod 2 ^ 64 -> conv_bits 64 false x = conv_bits 64 false y) by (intros x y H; unfold conv_bits; rewrite H; reflexivity).
    rewrite (M _ (k * sz)).
    - apply conv_id; [lia|]. exact K.
    - rewrite Zminus_mod, !conv_mod, <- Zminus_mod by lia. f_equal. lia. }
  rewrite D, Z.quot_mul by lia. f_equal. apply conv_id; [lia|]. change (2 ^ (64 - 1)) with (2 ^ 63). nia.
Qed.

(** * Examples *)
Ltac ok := solve [right; reflexivity | reflexivity | left; reflexivity | discriminate | cbn; auto 10 | cbn; intuition discriminate].
Lemma names_ms : forall i, NoDup (flat_map names (ms i)).
Proof.
  intro i. unfold ms. destruct (i =? 1); [|destruct (i =? 3)]; cbn; repeat constructor; cbn; intuition discriminate.
Qed.
Lemma sizes_known : forall i, known i = true -> 0 <= sizes i.
Proof. intros i H. unfold known, sizes in *. destruct (i =? 1); [lia|]. destruct (i =? 3); [lia | discriminate]. Qed.
Section Ex.
Variable b : bool.
Local Notation typed := (typed ms known z0 b).
Lemma t_int : typed v_int (St true noq int None false). Proof. apply t_var. discriminate. Qed.
Lemma t_s : typed v_s (St true noq (CRec 1) None false). Proof. apply t_var. discriminate. Qed.
Lemma t_cs : typed v_cs (St true qconst (CRec 1) None false). Proof. apply t_var. discriminate. Qed.
Lemma t_p : typed v_p (St true noq (CPtr noq int) None false). Proof. apply t_var. discriminate. Qed.
Lemma t_cp : typed v_cp (St true noq (CPtr qconst int) None false). Proof. apply t_var. discriminate. Qed.
Lemma t_f : typed v_f (St true noq (CFun int false [(noq, long)]) None false). Proof. apply t_var. reflexivity. Qed.
Lemma t_num0 : typed num0 (rvalue int None true). Proof. exact (t_const ms known z0 b int 0 eq_refl). Qed.
Lemma t_sf : typed (XMember v_s "f") (St true noq (CInt KInt true) (Some 3) false).
Proof.
  refine (t_member ms known z0 b v_s "f" _ 1 false noq noq (CInt KInt true) (Some 3) t_s eq_refl _ _ _); try ok.
  apply mem_named; cbn; auto.
Qed.
Lemma good_typed : typed e_good (rvalue int None false).
Proof.
  assert (A : typed (XArrow v_ps "next") (St true qconst (CPtr noq (CRec 1)) None false)).
  { refine (t_arrow ms known z0 b v_ps "next" (St true noq (CPtr qconst (CRec 1)) None false) qconst 1 false noq noq (CPtr noq (CRec 1)) None _ eq_refl _ _).
    - apply t_var. discriminate.
    - apply mem_named; cbn; auto 10.
    - ok. }
  assert (B : typed (XMember (XDeref (XArrow v_ps "next")) "a") (St true noq (CArr (Some 4) noq int) None false)).
  { refine (t_member ms known z0 b _ "a" (St true noq (CRec 1) None false) 1 false noq noq (CArr (Some 4) noq int) None _ eq_refl _ _ _); try ok.
    - refine (t_deref ms known z0 b _ _ noq (CRec 1) A eq_refl _ _ _); ok.
    - apply mem_named; cbn; auto. }
  assert (I : typed (XCond v_int (XConst int 1) (XConst (CInt KPchar false) 99)) (rvalue int None false)).
  { refine (t_cond ms known z0 b _ _ _ _ _ _ int t_int (t_const ms known z0 b int 1 eq_refl) (t_const ms known z0 b (CInt KPchar false) 99 eq_refl) eq_refl _).
    apply c_arith; reflexivity. }
  assert (J : typed (XIdx (XMember (XDeref (XArrow v_ps "next")) "a") (XCond v_int (XConst int 1) (XConst (CInt KPchar false) 99))) (St true noq int None false)).
  { refine (t_idx ms known z0 b _ _ _ _ noq int B I eq_refl eq_refl eq_refl _). ok. }
  assert (K : typed (XBin OShl (XMember v_s "f") (XConst int 2)) (rvalue int None false)).
  { refine (t_bin ms known z0 b OShl _ _ _ _ (num (St true noq (CInt KInt true) (Some 3) false)) t_sf (t_const ms known z0 b int 2 eq_refl) _).
    apply b_shift; ok. }
  refine (t_assign_op ms known z0 b _ _ _ _ _ J K _ _).
  - repeat split; ok.
  - apply k_arith; ok.
Qed.
Lemma gen_typed : typed e_gen (rvalue int None false).
Proof.
  assert (C : typed (XCond v_int v_p num0) (rvalue (CPtr noq int) None false)).
  { refine (t_cond ms known z0 b _ _ _ _ _ _ (CPtr noq int) t_int t_p t_num0 eq_refl _). apply (c_null_r b _ _ noq int); ok. }
  assert (L : typed (XCall v_f [XBin OAdd (XMember v_s "f") (XConst long 1)]) (rvalue int None false)).
  { refine (t_call ms known z0 b _ _ _ noq int false [(noq, long)] t_f eq_refl eq_refl eq_refl eq_refl _).
    eapply args_cons; [| | apply args_nil].
    - refine (t_bin ms known z0 b _ _ _ _ _ long t_sf (t_const ms known z0 b long 1 eq_refl) _). apply b_arith; ok.
    - apply as_arith; reflexivity. }
  refine (t_generic ms known z0 b _ _ _ _ C _ _ _ _).
  - ok.
  - right. exact Logic.I.
  - refine (ch_type ms known z0 b _ [(None, XConst dbl 2); (Some (noq, CPtr qconst int), XConst int 1)] (CPtr noq int) _ [] _ L _ _).
    + repeat constructor.
    + cbn. intros q u x [H | [H | []]]; [discriminate|]. injection H as <- <- _. intros [_ X]. inversion X.
  - econstructor; [apply (t_const ms known z0 b dbl 2 eq_refl) | exact Logic.I |].
    econstructor; [apply (t_const ms known z0 b int 1 eq_refl) | split; [reflexivity | right; exact Logic.I] |].
    econstructor; [exact L | split; [reflexivity | right; exact Logic.I] | constructor].
Qed.
End Ex.

(** * Refutations *)
Section Ref.
Local Notation typed := (typed ms known z0 true).
Ltac ext := solve [left; reflexivity].
Lemma cond_typed : typed e_cond (rvalue (CPtr qconst int) None false).
Proof.
  refine (t_cond ms known z0 true _ _ _ _ _ _ (CPtr qconst int) (t_int _) (t_p _) (t_cp _) eq_refl _).
  apply (c_ptr true _ _ noq int qconst int); try ok; try ext. constructor.
Qed.
Lemma fcond_typed : typed e_fcond (rvalue (CPtr noq (CFun int false [(noq, long)])) None false).
Proof.
  refine (t_cond ms known z0 true _ _ _ _ _ _ _ (t_int _) (t_f _) (t_f _) eq_refl _).
  apply (c_ptr true _ _ noq (CFun int false [(noq, long)]) noq (CFun int false [(noq, long)])); try ok; try ext. repeat constructor.
Qed.
Lemma fcomma_typed : typed e_fcomma (rvalue (CPtr noq (CFun int false [(noq, long)])) None false).
Proof. refine (t_comma ms known z0 true _ _ _ _ (t_num0 _) (t_f _) _ _); ext. Qed.
Lemma member_c : forall s q t w p m, is_member (ms 1) s m p (q, t, w) ->
  typed (XMember v_cs s) (St true (add_cv (add_cv qconst p) q) t w (integer t && false)).
Proof. intros s q t w p m M. refine (t_member ms known z0 true v_cs s _ 1 m p q t w (t_cs _) eq_refl M _ _); ext. Qed.
Lemma decay_typed : typed e_decay (rvalue dbl None false).
Proof.
  refine (t_generic ms known z0 true _ _ _ _ (member_c "a" noq (CArr (Some 4) noq int) None noq false _) _ _ _ _); try ext.
  - apply mem_named; cbn; auto.
  - refine (ch_type ms known z0 true _ [(Some (noq, CPtr noq int), XConst int 1)] (CPtr qconst int) _ [] _ (t_const ms known z0 true dbl 2 eq_refl) _ _).
    + repeat constructor.
    + cbn. intros q u x [H | []]. injection H as <- <- _. intros [_ X]. inversion X.
  - econstructor; [apply (t_const ms known z0 true int 1 eq_refl) | split; [reflexivity | ext] |].
    econstructor; [apply (t_const ms known z0 true dbl 2 eq_refl) | split; [reflexivity | ext] |]. constructor.
Qed.
Lemma anon_typed : typed e_anon (rvalue (CPtr qconst int) None false).
Proof.
  refine (t_addr ms known z0 true _ _ (member_c "n" noq int None (add_cv noq noq) true _) eq_refl eq_refl _ _); [|ext | discriminate].
  eapply mem_anon; [right; right; left; reflexivity|]. apply mem_named; cbn; auto.
Qed.
Lemma atomic_typed : typed e_atomic (St true (Quals true false true false) int None false).
Proof.
  refine (t_member ms known z0 true _ "t" (St true qvolatile (CRec 1) None false) 1 false noq qatomic int None _ eq_refl _ _ _); try ext.
  - apply t_var. discriminate.
  - apply mem_named; cbn; auto 10.
Qed.
Lemma null_typed : typed e_null (rvalue (CPtr qconst CVoid) None false).
Proof.
  refine (t_cond ms known z0 true _ _ _ _ (rvalue (CPtr qconst CVoid) None false) _ _ (t_int _) _ (t_p _) eq_refl _).
  - refine (t_cast ms known z0 true noq (CPtr qconst CVoid) num0 _ (t_num0 _) _ _ _); try ext. right. repeat split.
  - apply (c_ptr_void true _ _ qconst CVoid noq int); try ok; try ext.
Qed.
Lemma exch_typed : typed e_exch (rvalue long None false).
Proof.
  refine (t_assign ms known z0 true _ _ (St true qatomic long None false) _ _ (t_const ms known z0 true int 1 eq_refl) _ _ _).
  - apply t_var. discriminate.
  - repeat split; ok.
  - ext.
  - apply as_arith; reflexivity.
Qed.
Ltac un := repeat match goal with H : TypSpec.typed _ _ _ _ ?e _ |- _ => match e with ?c => is_var c; fail 1 | _ => idtac end; first [unfold e in H | idtac]; inversion H; clear H; subst end.
Ltac pick := match goal with C : choice _ _ _ _ |- _ => inversion C; clear C; subst end; cbn in *; try discriminate;
    repeat match goal with E : CPtr _ _ = CPtr _ _ |- _ => injection E as <- <- end; try reflexivity; intuition discriminate.
Ltac mem1 := match goal with M : is_member _ _ _ _ _ |- _ => inversion M; clear M; subst end; cbn in *;
  repeat match goal with D : _ \/ _ |- _ => destruct D as [D | D] end; try contradiction;
  repeat match goal with E : @eq mem _ _ |- _ => first [discriminate E | injection E; clear E; intros; subst] end; cbn in *; try contradiction.
Ltac mems := mem1; try mem1; try mem1.
Lemma cond_only : forall s, typed e_cond s -> st s = CPtr qconst int.
Proof. unfold e_cond, v_int, v_p, v_cp. intros s H. un. pick. Qed.
Lemma fcond_only : forall s, typed e_fcond s -> st s = CPtr noq (CFun int false [(noq, long)]).
Proof. unfold e_fcond, v_int, v_f. intros s H. un. pick. Qed.
Lemma fcomma_only : forall s, typed e_fcomma s -> st s = CPtr noq (CFun int false [(noq, long)]).
Proof. unfold e_fcomma, num0, v_f. intros s H. un. reflexivity. Qed.
Lemma null_only : forall s, typed e_null s -> st s = CPtr qconst CVoid.
Proof. unfold e_null, v_int, num0, v_p. intros s H. un. pick. Qed.
Lemma exch_only : forall s, typed e_exch s -> st s = long.
Proof. unfold e_exch. intros s H. un. reflexivity. Qed.
Lemma atomic_only : forall s, typed e_atomic s -> sq s = Quals true false true false.
Proof. unfold e_atomic. intros s H. un. cbn in *. match goal with E : CRec _ = CRec _ |- _ => injection E as <- end. mems; reflexivity. Qed.
Lemma anon_only : forall s, typed e_anon s -> st s = CPtr qconst int.
Proof. unfold e_anon, v_cs. intros s H. un. cbn in *. match goal with E : CRec _ = CRec _ |- _ => injection E as <- end. mems; reflexivity. Qed.
Lemma two : forall (A : Type) (l1 l2 : list A) x a b, l1 ++ x :: l2 = [a; b] -> x = a \/ x = b.
Proof. intros A l1 l2 x a b E. assert (I : In x [a; b]) by (rewrite <- E; apply in_elt). cbn in I. intuition. Qed.
Lemma decay_chosen : forall T L s, chosen ms known z0 true T L s -> T = CPtr qconst int ->
  L = [(Some (noq, CPtr noq int), XConst int 1); (Some (noq, CPtr qconst int), XConst dbl 2)] -> st s = dbl.
Proof.
  intros T L s C ET. destruct C as [T l1 t e l2 s TY K _ | T l1 e l2 s TY _ _]; intro E; subst T; apply two in E; destruct E as [E | E]; try discriminate.
  - injection E as -> ->. inversion K.
  - injection E as -> ->. inversion TY. reflexivity.
Qed.
Lemma decay_only : forall s, typed e_decay s -> st s = dbl.
Proof.
  unfold e_decay, v_cs. intros s H. un. cbn in *. match goal with E : CRec _ = CRec _ |- _ => injection E as <- end. mems.
  all: eapply decay_chosen; eauto.
Qed.
Lemma fand_untyped : forall s, ~ typed e_fand s.
Proof.
  intros s H. inversion H as [| | | | | | | | | | | | | | | | |o x y a b t TA TB B| | | | |]; subst. inversion TA; subst. inversion B; subst; cbn in *; intuition discriminate.
Qed.
Lemma inc_untyped : forall s, ~ typed e_inc s.
Proof.
  intros s H. inversion H as [| | | | | | | | | | | | | | | | |o x y a b t TA TB B| | | | |]; subst. inversion TA; subst. inversion TB; subst.
  inversion B; subst; cbn in *; try discriminate; intuition try discriminate.
  injection H1 as <- <-. discriminate.
Qed.
End Ref.

(** What the compiler finds. *)
Lemma elab_refs : forall rsize opt,
  (exists n, elab ms rsize z0 opt e_cond = Ok n /\ nt n = CPtr noq int) /\
  (exists n, elab ms rsize z0 opt e_fcond = Ok n /\ nt n = CFun int false [(noq, long)]) /\
  (exists n, elab ms rsize z0 opt e_fcomma = Ok n /\ nt n = CFun int false [(noq, long)]) /\
  (exists n, elab ms rsize z0 opt e_decay = Ok n /\ nt n = int) /\
  (exists n, elab ms rsize z0 opt e_anon = Ok n /\ nt n = CPtr noq int) /\
  (exists n, elab ms rsize z0 opt e_atomic = Ok n /\ nq n = Quals false false true false) /\
  (exists n, elab ms rsize z0 opt e_null = Ok n /\ nt n = CPtr noq int) /\
  (exists n, elab ms rsize z0 opt e_exch = Ok n /\ nt n = int) /\
  (exists n, elab ms rsize z0 opt e_fand = Ok n /\ nt n = dbl) /\
  (exists n, elab ms rsize z0 opt e_inc = Ok n /\ nt n = CPtr noq (CRec 2)).
Proof.
  intros rsize opt. destruct opt; repeat split; match goal with |- exists n, ?x = _ /\ _ => let y := eval vm_compute in x in match y with Ok ?m => exists m; split; [vm_compute; reflexivity | vm_compute; reflexivity] end end.
Qed.
Lemma diff_bad : forall p k rsize,
  diff_value (p + k * 2 ^ 32) p (2 ^ 32) = Err /\ diff_value (p + 2 * 12) p (size rsize (CVla noq int)) = Ok 3.
Proof.
  intros p k rsize. split; [reflexivity|]. change (size rsize (CVla noq int)) with 8.
  replace (p + 2 * 12) with (p + 3 * 8) by lia. apply diff_ok; [lia|]. change (2 ^ 63) with 9223372036854775808. lia.
Qed.
