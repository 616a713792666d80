(** Proofs about enumerations. *)
From Coq Require Import ZArith List Bool Lia.
From Verif Require Import Base BitLemmas IntSpec IntLemmas IntModel IntProofs CgSpec InitModel InitProofs EnumSpec EnumModel.
Import ListNotations.
Local Open Scope Z_scope.

Lemma i64_id v : - 2 ^ 63 <= v < 2 ^ 63 -> i64 v = v.
Proof. intros. unfold i64. rewrite sx_sext by lia. apply sx_id; [lia|]. exact H. Qed.
Lemma i64_high v : 2 ^ 63 <= v < 2 ^ 64 -> i64 v = v - 2 ^ 64.
Proof.
  intros H. unfold i64. rewrite sx_sext by lia. rewrite (sx_cong 64 v (v - 2 ^ 64)).
  - apply sx_id; [lia|]. change (2 ^ (64 - 1)) with 9223372036854775808.
    change (2 ^ 63) with 9223372036854775808 in H. change (2 ^ 64) with 18446744073709551616 in *. lia.
  - replace (v - 2 ^ 64) with (v + (-1) * 2 ^ 64) by lia. rewrite Z.mod_add by (change (2 ^ 64) with 18446744073709551616; lia). reflexivity.
Qed.

Lemma conv_fix i x : in_range i x <-> conv i x = x.
Proof.
  split; [apply conv_id|]. intros E. rewrite <- E. apply conv_range.
Qed.

(** in_ty_range tests the range of the type. *)
Lemma in_ty_range_spec i x : isigned i = true \/ iwidth i < 64 -> - 2 ^ 63 <= x < 2 ^ 63 ->
  (in_ty_range x (mty i) = true <-> in_range i x).
Proof.
  intros W R. unfold in_ty_range. rewrite Z.eqb_eq. rewrite conv_fix. unfold eval_cast.
  destruct (ityp_dec i) as [->|N].
  - cbn [is_bool mty ty_bool kd conv]. destruct (x =? 0); cbn [negb z_of_bool]; reflexivity.
  - replace (is_bool (mty i)) with false by (destruct i; try reflexivity; congruence).
    rewrite ese_spec by auto. rewrite rep64_id; [reflexivity|].
    pose proof (conv_range i x) as C. apply in_range_nb in C. pose proof (iwidth_pos i).
    destruct (isigned i) eqn:SG.
    + assert (2 ^ (iwidth i - 1) <= 2 ^ 63) by (apply Z.pow_le_mono_r; [lia|destruct i; cbn; lia]). unfold two63. lia.
    + assert (2 ^ iwidth i <= 2 ^ 63) by (apply Z.pow_le_mono_r; [lia|destruct W; [discriminate|lia]]). unfold two63. lia.
Qed.


Ltac pows := change (2 ^ 63) with 9223372036854775808 in *; change (2 ^ 64) with 18446744073709551616 in *;
  change (2 ^ 31) with 2147483648 in *; change (2 ^ 32) with 4294967296 in *.

Lemma i64_cases v : dom v -> (v < 2 ^ 63 /\ i64 v = v) \/ (2 ^ 63 <= v /\ i64 v = v - 2 ^ 64).
Proof.
  unfold dom. intros H. destruct (Z.ltb_spec v (2 ^ 63)) as [L|L].
  - left. split; [exact L|apply i64_id; lia].
  - right. split; [exact L|apply i64_high]. pows. lia.
Qed.
Lemma i64_r v : - 2 ^ 63 <= i64 v < 2 ^ 63.
Proof. unfold i64. rewrite sx_sext by lia. apply (sx_range 64 v). lia. Qed.

Lemma next_ok v : dom v -> long_of (i64 v + 1) = Ok (i64 (v + 1)).
Proof.
  intros H. destruct (i64_cases v H) as [[L E]|[L E]]; rewrite E; unfold dom in H.
  - rewrite long_of_ok by (pows; lia). rewrite (i64_id (v + 1)) by (pows; lia). reflexivity.
  - rewrite long_of_ok by (pows; lia). rewrite (i64_high (v + 1)) by (pows; lia). f_equal. lia.
Qed.

Lemma range_int x : in_range TInt x <-> - 2 ^ 31 <= x < 2 ^ 31.
Proof. unfold in_range. change (imin TInt) with (-2147483648). change (imax TInt) with 2147483647. pows. lia. Qed.
Lemma range_uint x : in_range TUInt x <-> 0 <= x < 2 ^ 32.
Proof. unfold in_range. change (imin TUInt) with 0. change (imax TUInt) with 4294967295. pows. lia. Qed.
Lemma range_long x : in_range TLong x <-> - 2 ^ 63 <= x < 2 ^ 63.
Proof. unfold in_range. change (imin TLong) with (-9223372036854775808). change (imax TLong) with 9223372036854775807. pows. lia. Qed.
Lemma range_ulong x : in_range TULong x <-> 0 <= x < 2 ^ 64.
Proof. unfold in_range. change (imin TULong) with 0. change (imax TULong) with 18446744073709551615. pows. lia. Qed.

Lemma test_int v : dom v -> in_ty_range (i64 v) ty_int = true <-> in_range TInt v.
Proof.
  intros H. rewrite (in_ty_range_spec TInt (i64 v)) by (try apply i64_r; cbn; auto). rewrite !range_int.
  destruct (i64_cases v H) as [[L ->]|[L ->]]; [reflexivity|]. unfold dom in H. pows. lia.
Qed.
Lemma test_uint v : dom v -> in_ty_range (i64 v) ty_uint = true <-> in_range TUInt v.
Proof.
  intros H. rewrite (in_ty_range_spec TUInt (i64 v)) by (try apply i64_r; cbn; right; lia). rewrite !range_uint.
  destruct (i64_cases v H) as [[L ->]|[L ->]]; [reflexivity|]. unfold dom in H. pows. lia.
Qed.
Lemma test_long x : in_ty_range x ty_long = true.
Proof. unfold in_ty_range. apply Z.eqb_refl. Qed.
Lemma test_ulong x : in_ty_range x ty_ulong = true.
Proof. unfold in_ty_range. apply Z.eqb_refl. Qed.

(** What is known after the enumerators with the values [vs], the last one [prev]. *)
Definition known (s : st) (vs : list Z) (prev : Z) : Prop :=
  val s = i64 (prev + 1) /\ (neg s = true <-> Exists (fun v => v < 0) vs) /\
  (prev = -1 \/ In prev vs) /\
  (base s = ty_int \/ Exists (fun v => ~ in_range TInt v) vs) /\
  ((base s = ty_int /\ unsg s = false /\ all_in TInt vs) \/
   (base s = ty_uint /\ unsg s = true /\ neg s = false /\ all_in TUInt vs) \/
   (base s = ty_long /\ neg s = true) \/
   (base s = ty_ulong /\ unsg s = true)).

Definition value_of (prev : Z) (e : enumerator) : Z := match e with None => prev + 1 | Some (v, _) => v end.

Lemma neg_step s vs prev e : known s vs prev -> well_typed e -> dom (value_of prev e) ->
  match e with
  | None => neg s
  | Some (v, t) => neg s || (negb (uns (mty t)) && (i64 v <? 0)) end = neg s || (value_of prev e <? 0).
Proof.
  intros (_ & N & P & _) W D. destruct e as [[v t]|]; cbn [value_of well_typed] in *.
  - f_equal. replace (negb (uns (mty t))) with (isigned t) by (destruct t; reflexivity).
    apply in_range_nb in W. destruct (isigned t) eqn:SG; cbn [andb].
    + destruct (i64_cases v D) as [[L ->]|[L E]]; [reflexivity|]. exfalso.
      assert (2 ^ (iwidth t - 1) <= 2 ^ 63) by (apply Z.pow_le_mono_r; [lia|destruct t; cbn; lia]). lia.
    + symmetry. apply Z.ltb_ge. lia.
  - destruct (Z.ltb_spec (prev + 1) 0) as [L|L]; [|rewrite orb_false_r; reflexivity].
    rewrite orb_true_r. apply N. destruct P as [P|P]; [lia|]. apply Exists_exists. exists prev. split; [exact P|lia].
Qed.

Lemma exists_snoc (P : Z -> Prop) vs v : Exists P (vs ++ [v]) <-> Exists P vs \/ P v.
Proof.
  rewrite !Exists_exists. split.
  - intros (x & I & H). apply in_app_or in I as [I|[->|[]]]; eauto.
  - intros [(x & I & H)|H]; [exists x|exists v]; (split; [apply in_or_app; cbn; auto|exact H]).
Qed.
Lemma all_snoc t vs v : all_in t (vs ++ [v]) <-> all_in t vs /\ in_range t v.
Proof.
  unfold all_in. rewrite Forall_app. split; intros [A B]; split; auto.
  - inversion B; auto.
Qed.

Lemma step_ok s vs prev e : known s vs prev -> well_typed e -> dom (value_of prev e) ->
  exists s', enum_step false s e = Ok (i64 (value_of prev e), s') /\
    known s' (vs ++ [value_of prev e]) (value_of prev e).
Proof.
  intros K W D. pose proof (neg_step s vs prev e K W D) as NS. destruct K as (V & N & P & X & K).
  unfold enum_step. set (v := value_of prev e) in *.
  assert (EV : match e with None => val s | Some (v, _) => i64 v end = i64 v) by (destruct e as [[x t]|]; [reflexivity|exact V]).
  assert (EN : match e with None => neg s | Some (_, t) => neg s || (negb (uns (mty t)) && (i64 v <? 0)) end
     = neg s || (v <? 0)) by (rewrite <- NS; destruct e as [[x t]|]; reflexivity).
  rewrite EV. rewrite EN. clear EV EN NS. set (ng := neg s || (v <? 0)).
  assert (NG : ng = true <-> Exists (fun v => v < 0) (vs ++ [v])).
  { unfold ng. rewrite exists_snoc, orb_true_iff, Z.ltb_lt, N. reflexivity. }
  assert (XO : base s <> ty_int -> Exists (fun v => ~ in_range TInt v) (vs ++ [v])).
  { intros NB. apply exists_snoc. left. destruct X; [congruence|assumption]. }
  assert (XT : in_ty_range (i64 v) ty_int = false -> Exists (fun v => ~ in_range TInt v) (vs ++ [v])).
  { intros F. apply exists_snoc. right. rewrite <- (test_int v D). congruence. }
  assert (FIN : forall b u, b = ty_int \/ Exists (fun v => ~ in_range TInt v) (vs ++ [v]) -> (b = ty_int /\ u = false /\ all_in TInt (vs ++ [v])) \/
     (b = ty_uint /\ u = true /\ ng = false /\ all_in TUInt (vs ++ [v])) \/ (b = ty_long /\ ng = true) \/
     (b = ty_ulong /\ u = true) ->
     exists s', (do next <- long_of (i64 v + 1); Ok (i64 v, mkst next ng u b)) = Ok (i64 v, s') /\ known s' (vs ++ [v]) v).
  { intros b u HX H. rewrite next_ok by auto. cbn [bind]. eexists. split; [reflexivity|].
    split; [reflexivity|]. split; [exact NG|]. split; [right; apply in_or_app; right; left; reflexivity|]. split; [exact HX|exact H]. }
  destruct K as [(B & U & A)|[(B & U & N0 & A)|[(B & N1)|(B & U)]]]; rewrite B; rewrite B in XO.
  - destruct (in_ty_range (i64 v) ty_int) eqn:T.
    + cbn [bind fst snd]. apply FIN; [auto|]. left. rewrite U. split; auto. split; auto. apply all_snoc. split; auto. apply test_int; auto.
    + destruct ng eqn:NE.
      * cbn [andb bind fst snd]. apply FIN; [auto|]. right. right. left. auto.
      * cbn [bind fst snd]. apply FIN; [auto|]. destruct (in_ty_range (i64 v) ty_uint) eqn:T2; [|right; right; right; auto].
        right. left. repeat (split; auto). apply all_snoc. split; [|apply test_uint; auto].
        unfold all_in in *. rewrite Forall_forall in *. intros x I. specialize (A x I). rewrite range_int in A. rewrite range_uint.
        assert (0 <= x).
        { destruct (Z.ltb_spec x 0); [|lia]. exfalso. assert (false = true); [|discriminate]. apply NG.
          apply exists_snoc. left. apply Exists_exists. exists x. auto. }
        pows. lia.
  - destruct (in_ty_range (i64 v) ty_uint) eqn:T.
    + cbn [bind fst snd]. apply FIN; [right; apply XO; discriminate|]. right. left. apply (test_uint v D) in T. repeat (split; auto).
      * unfold ng. rewrite N0. apply range_uint in T. apply Z.ltb_ge. lia.
      * apply all_snoc. auto.
    + destruct ng eqn:NE.
      * rewrite U. rewrite andb_false_r. cbn [bind fst snd]. apply FIN; [right; apply XO; discriminate|]. right. right. left. auto.
      * cbn [bind fst snd]. apply FIN; [right; apply XO; discriminate|]. right. right. right. auto.
  - rewrite test_long. cbn [bind fst snd]. apply FIN; [right; apply XO; discriminate|]. right. right. left. split; auto. unfold ng. rewrite N1. reflexivity.
  - rewrite test_ulong. cbn [bind fst snd]. apply FIN; [right; apply XO; discriminate|]. right. right. right. auto.
Qed.

Lemma list_ok l : forall s vs prev, known s vs prev -> Forall well_typed l -> Forall dom (values prev l) ->
  exists s' last, enum_list false s l = Ok (map i64 (values prev l), s') /\ known s' (vs ++ values prev l) last.
Proof.
  induction l as [|e l IH]; intros s vs prev K W D.
  - exists s, prev. cbn [values enum_list map]. rewrite app_nil_r. auto.
  - inversion_clear W as [|? ? W1 W2].
    assert (EQ : values prev (e :: l) = value_of prev e :: values (value_of prev e) l) by (destruct e as [[v t]|]; reflexivity).
    rewrite EQ in *. inversion_clear D as [|? ? D1 D2].
    destruct (step_ok s vs prev e K W1 D1) as (s1 & E1 & K1).
    destruct (IH s1 _ _ K1 W2 D2) as (s2 & last & E2 & K2).
    exists s2, last. cbn [enum_list]. rewrite E1. cbn [bind fst snd]. rewrite E2. cbn [bind fst snd map].
    split; [reflexivity|]. rewrite <- app_assoc in K2. exact K2.
Qed.

Lemma enum_free l : l <> [] -> Forall well_typed l -> Forall dom (enum_values l) ->
  (Forall (fun v => 0 <= v) (enum_values l) \/ Forall (fun v => v < 2 ^ 63) (enum_values l)) ->
  exists t u, enum_specifier None l = Ok (map i64 (enum_values l), mty t, u) /\
    all_in t (enum_values l) /\
    (u = true \/ t = TInt <-> all_in TInt (enum_values l)).
Proof.
  intros NE W D S. unfold enum_specifier.
  destruct (list_ok l (mkst 0 false false ty_int) [] (-1)) as (s & last & E & K); auto.
  { split; [reflexivity|]. split; [cbn; split; [discriminate|intros H; inversion H]|]. split; [auto|]. split; [auto|].
    left. repeat split; constructor. }
  change (values (-1) l) with (enum_values l) in *. cbn [app] in K.
  destruct l as [|e0 l0]; [congruence|]. set (l := e0 :: l0) in *. rewrite E. cbn [bind fst snd].
  assert (NEV : exists v, In v (enum_values l)).
  { unfold l, enum_values. destruct e0 as [[v t]|]; cbn [values]; eexists; left; reflexivity. }
  set (vs := enum_values l) in *. clearbody vs. unfold all_in in *. rewrite !Forall_forall in *.
  destruct K as (_ & N & _ & X & K). unfold enum_close.
  assert (NN : neg s = false -> forall v, In v vs -> 0 <= v).
  { intros F v I. destruct (Z.ltb_spec v 0); [|lia]. exfalso. assert (neg s = true); [|congruence].
    apply N. apply Exists_exists. eauto. }
  assert (NP : neg s = true -> forall v, In v vs -> - 2 ^ 63 <= v < 2 ^ 63).
  { intros T v I. specialize (D v I). unfold dom in D. split; [lia|]. destruct S as [S|S]; [|apply S, I].
    apply N in T. apply Exists_exists in T as (w & I' & L'). specialize (S w I'). lia. }
  assert (NX : forall t u, base s <> ty_int -> u = false -> t <> TInt -> (u = true \/ t = TInt <-> forall v, In v vs -> in_range TInt v)).
  { intros t u NB -> NT. destruct X as [X|X]; [congruence|]. apply Exists_exists in X as (w & I & X).
    split; [intros [F|F]; congruence|]. intros H. elim X. apply H, I. }
  destruct K as [(B & U & A)|[(B & U & N0 & A)|[(B & N1)|(B & U)]]]; rewrite B; rewrite B in NX; rewrite ?U, ?N0, ?N1; cbn [kd ty_int ty_uint ty_long ty_ulong andb negb].
  - destruct (neg s) eqn:NG; cbn [andb negb fst snd].
    + exists TInt, false. split; [reflexivity|]. unfold all_in in *; rewrite !Forall_forall in *. split; [exact A|]. split; auto.
    + exists TUInt, true. split; [reflexivity|]. unfold all_in in *; rewrite !Forall_forall in *. split; [|split; auto].
      intros v I. specialize (A v I). rewrite range_int in A. rewrite range_uint. specialize (NN eq_refl v I). pows. lia.
  - exists TUInt, false. split; [reflexivity|]. unfold all_in in *; rewrite !Forall_forall in *. split; [exact A|]. apply NX; (discriminate || congruence).
  - destruct (unsg s); exists TLong, false; (split; [reflexivity|]); unfold all_in in *; rewrite !Forall_forall in *;
      (split; [|apply NX; (discriminate || congruence)]); intros v I; apply range_long; auto.
  - destruct (neg s) eqn:NG; cbn [andb negb]; [exists TLong, false|exists TULong, false]; (split; [reflexivity|]);
      unfold all_in in *; rewrite !Forall_forall in *; (split; [|apply NX; (discriminate || congruence)]); intros v I.
    + apply range_long; auto.
    + apply range_ulong. specialize (NN eq_refl v I). specialize (D v I). unfold dom in D. pows. lia.
Qed.

(** *** Fixed underlying types. *)
Lemma fixed_list i l : isigned i = true \/ iwidth i < 64 -> forall s prev, Forall well_typed l ->
  Forall (fun v => - 2 ^ 63 <= v < 2 ^ 63 - 1) (values prev l) -> base s = mty i -> unsg s = false -> val s = i64 (prev + 1) ->
  (all_in i (values prev l) -> exists s', enum_list true s l = Ok (map i64 (values prev l), s') /\ base s' = mty i /\ unsg s' = false) /\
  (~ all_in i (values prev l) -> enum_list true s l = Abort).
Proof.
  intros WI. induction l as [|e l IH]; intros s prev W D B U V.
  - cbn [values]. split; [intros _; exists s; auto|]. intros F. elim F. constructor.
  - inversion_clear W as [|? ? W1 W2].
    assert (EQ : values prev (e :: l) = value_of prev e :: values (value_of prev e) l) by (destruct e as [[v t]|]; reflexivity).
    rewrite EQ in *. inversion_clear D as [|? ? D1 D2]. cbn [enum_list]. unfold enum_step.
    set (v := value_of prev e) in *.
    assert (EV : match e with None => val s | Some (v, _) => i64 v end = i64 v) by (destruct e as [[x t]|]; [reflexivity|exact V]).
    rewrite EV, B. pose proof (in_ty_range_spec i (i64 v) WI (i64_r v)) as T. rewrite (i64_id v) in T |- * by lia.
    destruct (in_ty_range v (mty i)) eqn:TE; cbn [bind].
    + rewrite long_of_ok by (pows; lia). cbn [bind fst snd].
      match goal with |- context [enum_list true ?s1 l] => destruct (IH s1 v) as [I1 I2] end; auto.
      { cbn [val]. rewrite i64_id by (pows; lia). reflexivity. }
      split.
      * intros A. unfold all_in in A. inversion_clear A as [|? ? A1 A2]. destruct (I1 A2) as (s' & E & B' & U').
        rewrite E. cbn [bind fst snd map]. exists s'. rewrite (i64_id v) by lia. auto.
      * intros A. rewrite I2; [reflexivity|]. intros F. apply A. constructor; [apply T; reflexivity|exact F].
    + split; [|reflexivity]. intros A. inversion_clear A as [|? ? A1 A2]. apply T in A1. discriminate.
Qed.

Lemma enum_fixed i l : l <> [] -> iwidth i <> 32 -> isigned i = true \/ iwidth i < 64 -> Forall well_typed l ->
  Forall (fun v => - 2 ^ 63 <= v < 2 ^ 63 - 1) (enum_values l) ->
  (all_in i (enum_values l) -> enum_specifier (Some (mty i)) l = Ok (map i64 (enum_values l), mty i, false)) /\
  (~ all_in i (enum_values l) -> enum_specifier (Some (mty i)) l = Abort).
Proof.
  intros NE N32 WI W D. destruct l as [|e0 l0]; [congruence|]. unfold enum_specifier.
  destruct (fixed_list i (e0 :: l0) WI (mkst 0 false false (mty i)) (-1)) as [I1 I2]; auto.
  split; intros A.
  - destruct (I1 A) as (s' & E & B & U). rewrite E. cbn [bind fst snd]. unfold enum_close. rewrite B, U, andb_false_r.
    replace (match kd (mty i) with KInt => true | _ => false end) with false by (destruct i; try reflexivity; cbn in N32; congruence).
    reflexivity.
  - rewrite (I2 A). reflexivity.
Qed.
