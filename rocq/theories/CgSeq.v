(** Effect of the instruction sequences emitted by the code generator. *)
From Coq Require Import ZArith List Bool Lia.
From Verif Require Import Base BitLemmas IntSpec IntLemmas IntModel IntTyped IntProofs IntFold
  IntElab X86 CgModel CgLemmas.
Import ListNotations.
Local Open Scope Z_scope.

Section Seq.
Variable sym : nat -> Z.

(** Everything but the scratch registers %rax, %rcx, %rdx and the flags is unchanged. *)
Definition pres (m m' : mach) : Prop :=
  (forall r, r <> AX -> r <> CX -> r <> DX -> rg m' r = rg m r) /\ mm m' = mm m.

Definition slc (code : list instr) (m : mach) (Q : mach -> Prop) : Prop :=
  exists m', run sym code None m = Some (None, m') /\ pres m m' /\ Q m'.

Lemma pres_refl m : pres m m. Proof. split; auto. Qed.
Lemma pres_trans a b c : pres a b -> pres b c -> pres a c.
Proof. intros [A B] [C D]. split; [|congruence]. intros. rewrite C, A; auto. Qed.

Lemma slc_nil m (Q : mach -> Prop) : Q m -> slc [] m Q.
Proof. intros. exists m. split; [reflexivity|]. split; [apply pres_refl|auto]. Qed.

Lemma slc_app a b m (Q Q' : mach -> Prop) : slc a m Q -> (forall m1, pres m m1 -> Q m1 -> slc b m1 Q') ->
  slc (a ++ b) m Q'.
Proof.
  intros [m1 [R1 [P1 Q1]]] H. destruct (H m1 P1 Q1) as [m2 [R2 [P2 Q2]]].
  exists m2. rewrite run_app, R1. split; [exact R2|]. split; [eapply pres_trans; eauto|auto].
Qed.

Lemma slc_weak c m (Q Q' : mach -> Prop) : slc c m Q -> (forall m', pres m m' -> Q m' -> Q' m') -> slc c m Q'.
Proof. intros [m1 [R1 [P1 Q1]]] H. exists m1. auto. Qed.
End Seq.

Ltac xstep :=
  cbn [run exec1 osize osizes app flat_map forallb size_eqb is_mem is_reg andb negb
       rd wr noflags imm_ok nbits nbytes].
Ltac prest := split; [let r := fresh "r" in intros r ? ? ?; destruct r; try congruence; reflexivity|reflexivity].
Ltac xgo := eexists; split; [xstep; reflexivity|]; split; [prest|];
  cbn [rg setf putr setr setm reg_eqb nbits mm fl].

Section Seq2.
Variable sym : nat -> Z.
Local Notation slc := (slc sym).

Definition big (s : size) : Prop := s = S4 \/ s = S8.

Lemma imm32_ok s v : big s -> - 2 ^ 31 <= v < 2 ^ 31 -> imm_ok s v = true.
Proof. intros [-> | ->] H; cbn; destruct (Z.leb_spec (-2147483648) v), (Z.ltb_spec v 4294967296), (Z.ltb_spec v 2147483648); cbn; lia. Qed.

Lemma in_imm_spec v : in_imm_range v = true <-> - 2 ^ 31 <= v < 2 ^ 31.
Proof.
  unfold in_imm_range. rewrite Z.eqb_eq, (sx_sext 32) by lia. split.
  - intros ->. apply (sx_range 32). lia.
  - intros H. symmetry. apply (sx_id 32); [lia|exact H].
Qed.

Lemma sext32_spec v : (v =? sext 32 v) = true <-> - 2 ^ 31 <= v < 2 ^ 31.
Proof. apply in_imm_spec. Qed.

Lemma trunc32_spec v : (v =? trunc 32 v) = true <-> 0 <= v < 2 ^ 32.
Proof.
  unfold trunc. rewrite Z.eqb_eq. split.
  - intros ->. apply mod_bound. lia.
  - intros H. symmetry. apply Z.mod_small. exact H.
Qed.

(** *** load_val *)
Lemma load_val_ok t v m : - two63 <= v < two63 ->
  slc (load_val t v) m (fun m' => eqm 32 (rg m' AX) v /\
    (sz t = 8 \/ 0 <= v < 2 ^ 32 -> eqm 64 (rg m' AX) v)).
Proof.
  intros R. unfold two63 in R. unfold load_val.
  destruct (Z.eqb_spec v 0) as [->|NZ].
  { xgo. rewrite Z.lxor_nilpotent. split; [reflexivity|]. intros _. reflexivity. }
  destruct (v =? trunc 32 v) eqn:T.
  { apply trunc32_spec in T.
    assert (K : imm_ok S4 v = true).
    { cbn. destruct (Z.leb_spec (-2147483648) v), (Z.ltb_spec v 4294967296); cbn; lia. }
    cbn [imm_ok nbits] in K. eexists. split; [xstep; rewrite K; reflexivity|]. split; [prest|].
    cbn [rg setf putr setr setm reg_eqb nbits]. rewrite Z.mod_small by lia.
    split; intros; reflexivity. }
  destruct (v =? sext 32 v) eqn:T2.
  { apply sext32_spec in T2. destruct (Z.eqb_spec (sz t) 8) as [E|N].
    - eexists. split; [xstep|].
      { destruct (Z.leb_spec (-2 ^ 63) v); [|lia]. destruct (Z.ltb_spec v (2 ^ 64)); [|lia]. reflexivity. }
      split; [prest|]. cbn [rg setf putr setr setm reg_eqb nbits].
      split; [apply eqm_mod_le; lia|]. intros _. apply eqm_mod_le; lia.
    - pose proof (imm32_ok S4 v (or_introl eq_refl) T2) as K. cbn [imm_ok nbits] in K.
      eexists. split; [xstep; rewrite K; reflexivity|]. split; [prest|].
      cbn [rg setf putr setr setm reg_eqb nbits].
      split; [apply eqm_mod_le; lia|]. intros [D|D]; [contradiction|].
      exfalso. assert ((v =? trunc 32 v) = true) by (apply trunc32_spec; exact D). congruence. }
  eexists. split; [xstep|].
  { destruct (Z.leb_spec (-2 ^ 63) v); [|lia]. destruct (Z.ltb_spec v (2 ^ 64)); [|lia]. reflexivity. }
  split; [prest|]. cbn [rg setf putr setr setm reg_eqb nbits].
  split; [apply eqm_mod_le; lia|]. intros _. apply eqm_mod_le; lia.
Qed.

(** *** Loads *)
Definition tysize (t : ty) : nat := Z.to_nat (sz t).

Lemma loadv_signed n x : 1 <= n -> - 2 ^ (n - 1) <= x < 2 ^ (n - 1) -> sgn n (x mod 2 ^ n) = x.
Proof. intros. rewrite sgn_mod by lia. apply sx_id; lia. Qed.

(** Value the memory operand [M b o] holds, as [k] bytes. *)
Definition holds (b : base) (o : Z) (k : nat) (x : Z) (m : mach) : Prop :=
  loadn k (ea sym b o m) (mm m) = x mod 2 ^ (8 * Z.of_nat k).

Lemma holds_low b o k j x m : (j <= k)%nat -> holds b o k x m -> holds b o j x m.
Proof.
  unfold holds. intros H E. rewrite (loadn_low k j) by auto. rewrite E. apply mod_mod_le. lia.
Qed.

Ltac szs H := repeat match type of H with context [tysize ?t] =>
  let v := eval vm_compute in (tysize t) in change (tysize t) with v in H end.
Ltac bits8 :=
  try change (8 * Z.of_nat 1) with 8 in *; try change (8 * Z.of_nat 2) with 16 in *;
  try change (8 * Z.of_nat 4) with 32 in *; try change (8 * Z.of_nat 8) with 64 in *.
Ltac ld_tac :=
  first [ rewrite (loadv_signed 8) by lia | rewrite (loadv_signed 16) by lia
        | rewrite (loadv_signed 32) by lia | idtac ];
  repeat match goal with |- context [?x mod 2 ^ ?k] => rewrite (Z.mod_small x (2 ^ k)) by lia end;
  try reflexivity;
  first [ apply eqm_mod_le; lia
        | eapply eqm_trans; [apply eqm_mod_le; lia|]; apply eqm_mod_le; lia ].

Lemma load_extend_ok t b o x r m code : is_ty t -> in_range (ity t) x -> r = AX \/ r = DX ->
  holds b o (tysize t) x m ->
  load_extend_int t b o (if sz t =? 8 then S8 else S4) r = Ok code ->
  slc code m (fun m' => eqm 32 (rg m' r) x /\ (sz t = 8 \/ uns t = true -> eqm 64 (rg m' r) x)
     /\ (r = DX -> rg m' AX = rg m AX)).
Proof.
  intros T R Hr H C. unfold holds in H.
  destruct (is_ty_inv t T) as [i [-> E]]. rewrite ity_mty in R. clear T E.
  apply in_range_nb in R.
  destruct i; cbn in C; injection C as <-; szs H; cbn [isigned iwidth] in R; bits8.
  all: destruct Hr as [-> | ->].
  all: eexists; (split; [xstep; rewrite ?H; reflexivity|]; split; [prest|]);
       cbn [rg setf putr setr setm reg_eqb nbits].
  all: split; [|split; [|intros Q; try reflexivity; discriminate Q]].
  all: try (intros [Q|Q]; discriminate Q).
  all: try intros _; ld_tac.
Qed.

Lemma load_extend64_ok t b o x r m code : is_ty t -> in_range (ity t) x -> r = AX \/ r = DX ->
  holds b o (tysize t) x m -> uns t = false ->
  load_extend_int64 t b o r = Ok code ->
  slc code m (fun m' => eqm 64 (rg m' r) x /\ (r = DX -> rg m' AX = rg m AX)).
Proof.
  intros T R Hr H U C. unfold holds in H.
  destruct (is_ty_inv t T) as [i [-> E]]. rewrite ity_mty in R. clear T E.
  apply in_range_nb in R.
  destruct i; try discriminate U; cbn in C; try discriminate C; injection C as <-; szs H; cbn [isigned iwidth] in R; bits8.
  all: destruct Hr as [-> | ->].
  all: eexists; (split; [xstep; rewrite ?H; reflexivity|]; split; [prest|]);
       cbn [rg setf putr setr setm reg_eqb nbits].
  all: split; [|intros Q; try reflexivity; discriminate Q].
  all: ld_tac.
Qed.

Lemma load3_ok t b o x m code : is_ty t -> in_range (ity t) x ->
  holds b o (tysize t) x m -> load3 t b o = Ok code ->
  slc code m (fun m' => eqm 32 (rg m' AX) x /\ (sz t = 8 \/ uns t = true -> eqm 64 (rg m' AX) x)).
Proof.
  intros T R H C.
  assert (C' : load_extend_int t b o (if sz t =? 8 then S8 else S4) AX = Ok code).
  { destruct (is_ty_inv t T) as [i [-> E]]. destruct i; exact C. }
  destruct (load_extend_ok t b o x AX m code T R (or_introl eq_refl) H C') as [m' [A [B [D [E _]]]]].
  exists m'. auto.
Qed.

(** *** setcc *)
Lemma setcc_ok o u f m : fl m = Some f ->
  slc (gen_cmp_setcc o u) m (fun m' => eqm 64 (rg m' AX) (b2z (cond_holds (cmp_cc o u) f))).
Proof.
  intros F. eexists. split; [unfold gen_cmp_setcc; xstep; rewrite F; reflexivity|]. split; [prest|].
  cbn [rg setf putr setr setm reg_eqb nbits]. unfold getr. cbn [rg setr reg_eqb nbits].
  set (q := rg m AX mod 2 ^ 64 / 2 ^ 8). clearbody q.
  rewrite Z.add_comm, Z.mod_add by lia.
  destruct (cond_holds (cmp_cc o u) f); reflexivity.
Qed.

(** *** Casts *)
Definition full (t : ty) : Prop := sz t = 8 \/ is_bool t = true.

Lemma fullb t : full t -> is_ty t -> (getTypeId t = U64 \/ getTypeId t = I64).
Proof. intros F T. destruct (is_ty_inv t T) as [i [-> _]]. destruct F, i; cbn in *; try discriminate; auto. Qed.

Ltac mv_tac :=
  repeat match goal with |- context [getr ?s AX ?m] => unfold getr; cbn [nbits] end;
  repeat match goal with
  | H : eqm ?n ?a ?x |- context [?a mod 2 ^ ?n] => rewrite H
  end.

Lemma cast_ok a b x m : is_ty a -> is_ty b -> is_bool b = false -> in_range (ity a) x ->
  eqm 32 (rg m AX) x -> (full a -> eqm 64 (rg m AX) x) ->
  slc (cast_table (getTypeId a) (getTypeId b)) m
    (fun m' => eqm 32 (rg m' AX) (conv (ity b) x) /\ (sz b = 8 -> eqm 64 (rg m' AX) (conv (ity b) x))).
Proof.
  intros Ta Tb NB R E32 E64.
  destruct (is_ty_inv a Ta) as [i [-> _]]. destruct (is_ty_inv b Tb) as [j [-> _]].
  rewrite ity_mty in *. clear Ta Tb.
  assert (E8 : eqm 8 (rg m AX) x) by (eapply eqm_le; [|exact E32]; lia).
  assert (E16 : eqm 16 (rg m AX) x) by (eapply eqm_le; [|exact E32]; lia).
  assert (NJ : j <> TBool) by (intros ->; discriminate).
  pose proof (conv_range j x) as CR. apply in_range_nb in CR.
  pose proof (eqm_conv j x NJ) as CE.
  apply in_range_nb in R. unfold full in E64.
  destruct i; (try (specialize (E64 (or_introl eq_refl)) || specialize (E64 (or_intror eq_refl)) || clear E64));
  destruct j; try congruence; cbn [isigned iwidth] in R, CR, CE |- *;
  cbn [getTypeId mty kd uns sz ty_bool ty_pchar ty_char ty_uchar ty_short ty_ushort ty_int ty_uint
       ty_long ty_ulong ty_llong ty_ullong cast_table];
  unfold i32i8, i32u8, i32i16, i32u16, i32i64, u32i64.
  all: try first
   [ (* nothing to do *)
     apply slc_nil; split;
     [ first [ eapply eqm_trans; [exact E32|]; apply eqm_sym; exact CE
             | eapply eqm_trans; [exact E32|]; apply eqm_sym; eapply eqm_le; [|exact CE]; lia
             | rewrite conv_id by (apply in_range_nb; cbn [isigned iwidth]; lia); exact E32 ]
     | intros Q; first [ discriminate Q
                       | eapply eqm_trans; [exact E64|]; apply eqm_sym; exact CE ] ]
   | eexists; split; [xstep; reflexivity|]; split; [prest|];
     cbn [rg setf putr setr setm reg_eqb nbits]; unfold getr; cbn [nbits];
     rewrite ?E8, ?E16, ?E32;
     match goal with |- context [conv ?j ?y] => rewrite (conv_nb j y) in * by discriminate end;
     cbn [isigned iwidth] in *;
     rewrite ?sgn_mod by lia;
     split; [|intros Q; try discriminate Q];
     first [ apply eqm_mod_le; lia
           | rewrite (sx_id 32) by lia; eapply eqm_trans; [apply eqm_mod_le; lia|]; first [apply eqm_sym; exact CE | apply eqm_sym; eapply eqm_le; [|exact CE]; lia]
           | match goal with y : Z |- _ => rewrite (Z.mod_small y (2 ^ 32)) by lia end; eapply eqm_trans; [apply eqm_mod_le; lia|]; first [apply eqm_sym; exact CE | apply eqm_sym; eapply eqm_le; [|exact CE]; lia]
           | eapply eqm_trans; [apply eqm_mod_le; lia|]; first [apply eqm_mod_le; lia | idtac ] ] ].
  all: eexists; split; [xstep; reflexivity|]; split; [prest|];
     cbn [rg setf putr setr setm reg_eqb nbits]; unfold getr; cbn [nbits]; unfold eqm in E32; rewrite E32;
     rewrite !(Z.mod_small x (2 ^ 32)) by lia;
     (split; [|intros _]); [eapply eqm_le; [|apply eqm_sym; exact CE]; lia | apply eqm_sym; exact CE].
Qed.

(** *** Two-operand arithmetic *)
Definition alu_fun (o : binop) : Z -> Z -> Z :=
  match o with
  | BAdd => Z.add | BSub => Z.sub | BMul => Z.mul | BAnd => Z.land | BOr => Z.lor | _ => Z.lxor
  end.
Definition simple (o : binop) : Prop := o <> BDiv /\ o <> BMod.

Lemma alu_fun_eqm o n a b c d : simple o -> 0 <= n -> eqm n a b -> eqm n c d ->
  eqm n (alu_fun o a c) (alu_fun o b d).
Proof.
  intros [A B] H E F. destruct o; try congruence; cbn [alu_fun];
  [apply eqm_add|apply eqm_sub|apply eqm_mul|apply eqm_land|apply eqm_lor|apply eqm_lxor]; auto.
Qed.

(** The value computed by the C operator modulo 2^n. *)
Lemma c_bin_alu o i x y v : simple o -> i <> TBool -> c_bin o i x y = Some v ->
  eqm (iwidth i) (alu_fun o x y) v.
Proof.
  intros [A B] N H. destruct o; try congruence; cbn [c_bin alu_fun] in *;
  first [apply eqm_wrap; [assumption|exact H] | injection H as <-; apply eqm_refl].
Qed.

(** An ALU instruction with a register, memory or immediate source and %rax as target. *)
Lemma alu_ax o i s src b m : arith_ins o = Ok i -> big s ->
  osize None [src; R s AX] = Some s -> is_mem src && is_mem (R s AX) = false ->
  rd sym s src m = Some b ->
  slc [Alu i None src (R s AX)] m (fun m' => eqm (nbits s) (rg m' AX) (alu_fun o (rg m AX) b)).
Proof.
  intros A Bs OS IM RD.
  assert (SO : simple o) by (split; intros ->; discriminate).
  assert (X : exec1 sym (Alu i None src (R s AX)) m =
    Some (setf (putr s AX (alu_fun o (getr s AX m) b) m) None)).
  { cbn [exec1]. rewrite IM, OS. change (rd sym s (R s AX) m) with (Some (getr s AX m)).
    cbv iota. rewrite RD. cbv iota zeta.
    destruct o; try discriminate A; injection A as <-; cbn [wr noflags alu_fun]; try reflexivity.
    destruct Bs as [-> | ->]; reflexivity. }
  eexists. split; [|split].
  - cbn [run]. rewrite X. reflexivity.
  - destruct Bs as [-> | ->]; prest.
  - pose proof (nbits_pos s).
    assert (E : forall z, eqm (nbits s) (rg (setf (putr s AX z m) None) AX) z).
    { intros z. destruct Bs as [-> | ->]; cbn [putr setf setr rg reg_eqb]; apply eqm_mod; cbn; lia. }
    eapply eqm_trans; [apply E|]. apply alu_fun_eqm; auto; [lia| |apply eqm_refl].
    unfold getr. apply eqm_mod. lia.
Qed.

(** *** Immediate operands *)
Lemma imm_read s v m : big s -> imm_ok s v = true ->
  exists z, rd sym s (I v) m = Some z /\ eqm (nbits s) z v.
Proof.
  intros _ K. cbn [rd]. rewrite K. eexists. split; [reflexivity|]. apply eqm_mod.
  pose proof (nbits_pos s). lia.
Qed.

(** Moving a 64-bit immediate into a scratch register. *)
Lemma mov_imm_ok s v r m : big s -> r = AX \/ r = DX ->
  (s = S8 -> - 2 ^ 63 <= v < 2 ^ 64) -> (s = S4 -> - 2 ^ 31 <= v < 2 ^ 32) ->
  slc [Mov None (I v) (R s r)] m (fun m' => eqm (nbits s) (rg m' r) v /\ (r = DX -> rg m' AX = rg m AX)).
Proof.
  intros Bs Hr R8 R4. destruct Bs as [-> | ->].
  - specialize (R4 eq_refl). assert (K : imm_ok S4 v = true).
    { cbn. destruct (Z.leb_spec (-2147483648) v), (Z.ltb_spec v 4294967296); cbn; lia. }
    cbn [imm_ok nbits] in K.
    destruct Hr as [-> | ->]; eexists; (split; [xstep; rewrite K; reflexivity|]; split; [prest|]);
    cbn [rg setf putr setr setm reg_eqb nbits]; (split; [apply eqm_mod_le; lia|]); auto. discriminate.
  - specialize (R8 eq_refl).
    assert (K : (-2 ^ 63 <=? v) && (v <? 2 ^ 64) = true).
    { destruct (Z.leb_spec (-2 ^ 63) v); [|lia]. destruct (Z.ltb_spec v (2 ^ 64)); [reflexivity|lia]. }
    destruct Hr as [-> | ->]; (eexists; split; [xstep; rewrite K; reflexivity|split; [prest|]]).
    all: cbn [rg setf putr setr setm reg_eqb nbits]; (split; [apply eqm_mod_le; lia|]); auto. discriminate.
Qed.

Definition imm_dom (s : size) (v : Z) : Prop := if size_eqb s S8 then - 2 ^ 63 <= v < 2 ^ 63 else - 2 ^ 31 <= v < 2 ^ 31.

Lemma alu_imm2 o i s v m : arith_ins o = Ok i -> big s -> imm_dom s v ->
  slc (imm_arith2 i s AX DX v) m (fun m' => eqm (nbits s) (rg m' AX) (alu_fun o (rg m AX) v)).
Proof.
  intros A Bs D. unfold imm_arith2. destruct (in_imm_range v) eqn:K.
  - apply in_imm_spec in K. destruct (imm_read s v m Bs (imm32_ok s v Bs K)) as [z [RZ EZ]].
    eapply slc_weak.
    + eapply alu_ax; eauto; destruct Bs as [-> | ->]; reflexivity.
    + intros m' _ E. pose proof (nbits_pos s). eapply eqm_trans; [exact E|].
      apply alu_fun_eqm; auto; [|lia| apply eqm_refl]. split; intros ->; discriminate.
  - assert (NK : ~ (- 2 ^ 31 <= v < 2 ^ 31)) by (intros Q; apply in_imm_spec in Q; congruence).
    destruct Bs as [-> | ->]; [cbn in D; contradiction|]. cbn [imm_dom size_eqb] in D.
    apply (slc_app sym [_] [_]) with (Q := fun m' => eqm 64 (rg m' DX) v /\ rg m' AX = rg m AX).
    + eapply slc_weak; [apply (mov_imm_ok S8 v DX m); [right; reflexivity|right; reflexivity|lia|discriminate]|].
      intros m' _ [E F]. auto.
    + intros m1 P1 [E F]. eapply slc_weak.
      * eapply alu_ax; [exact A|right; reflexivity|reflexivity|reflexivity|reflexivity].
      * intros m' _ E'. eapply eqm_trans; [exact E'|]. rewrite F. apply alu_fun_eqm; [split; intros ->; discriminate|cbn; lia|apply eqm_refl|].
        unfold getr. eapply eqm_trans; [apply eqm_mod; cbn; lia|]. exact E.
Qed.

Lemma un_ok o s m : big s ->
  slc [Un o (R s AX)] m (fun m' => eqm (nbits s) (rg m' AX)
    (match o with XNeg => - rg m AX | XNot => - rg m AX - 1 | XInc => rg m AX + 1 | XDec => rg m AX - 1 end)).
Proof.
  intros Bs. pose proof (nbits_pos s) as NP.
  assert (E : eqm (nbits s) (getr s AX m) (rg m AX)) by (apply eqm_mod; lia).
  destruct Bs as [-> | ->]; destruct o; xgo; (eapply eqm_trans; [apply eqm_mod; cbn; lia|]);
  cbn [nbits] in *;
  repeat first [apply eqm_sub | apply eqm_add | apply eqm_opp | exact E | apply eqm_refl].
Qed.

Lemma xor_self s r m : big s -> r = AX \/ r = DX ->
  slc [Alu AXor None (R s r) (R s r)] m (fun m' => rg m' r = 0 /\ (r = DX -> rg m' AX = rg m AX)).
Proof.
  intros [-> | ->] [-> | ->]; xgo; rewrite Z.lxor_nilpotent; split; auto; discriminate.
Qed.

Lemma imm_add_ok s v m : big s -> imm_dom s v ->
  slc (imm_add s AX DX v) m (fun m' => eqm (nbits s) (rg m' AX) (rg m AX + v)).
Proof.
  intros Bs D. unfold imm_add.
  destruct (Z.eqb_spec v 0) as [->|]; [apply slc_nil; rewrite Z.add_0_r; apply eqm_refl|].
  destruct (Z.eqb_spec v 1) as [->|]; [apply (un_ok XInc); auto|].
  destruct (Z.eqb_spec v (-1)) as [->|]; [apply (un_ok XDec); auto|].
  apply (alu_imm2 BAdd); auto.
Qed.
Lemma imm_sub_ok s v m : big s -> imm_dom s v ->
  slc (imm_sub s AX DX v) m (fun m' => eqm (nbits s) (rg m' AX) (rg m AX - v)).
Proof.
  intros Bs D. unfold imm_sub.
  destruct (Z.eqb_spec v 0) as [->|]; [apply slc_nil; rewrite Z.sub_0_r; apply eqm_refl|].
  destruct (Z.eqb_spec v 1) as [->|]; [apply (un_ok XDec); auto|].
  destruct (Z.eqb_spec v (-1)) as [->|]; [apply (un_ok XInc); auto|].
  apply (alu_imm2 BSub); auto.
Qed.
Lemma imm_and_ok s v m : big s -> imm_dom s v ->
  slc (imm_and s AX DX v) m (fun m' => eqm (nbits s) (rg m' AX) (Z.land (rg m AX) v)).
Proof.
  intros Bs D. unfold imm_and.
  destruct (Z.eqb_spec v 0) as [->|].
  { eapply slc_weak; [apply (xor_self s AX); auto|]. intros m' _ [E _]. rewrite E, Z.land_0_r. apply eqm_refl. }
  destruct (Z.eqb_spec v (-1)) as [->|]; [apply slc_nil; rewrite Z.land_m1_r; apply eqm_refl|].
  apply (alu_imm2 BAnd); auto.
Qed.

Lemma sh_imm o s k m : big s -> 0 <= k < nbits s ->
  slc [Sh o (CImm k) (R s AX)] m (fun m' => rg m' AX =
    (match o with XShl => getr s AX m * 2 ^ k | XShr => getr s AX m / 2 ^ k
     | XSar => sgn (nbits s) (getr s AX m) / 2 ^ k end) mod 2 ^ nbits s).
Proof.
  intros Bs H. pose proof (nbits_pos s).
  assert (K : (0 <=? k) && (k <? 256) = true).
  { destruct (Z.leb_spec 0 k); [|lia]. destruct (Z.ltb_spec k 256); [reflexivity|lia]. }
  assert (KM : k mod (if size_eqb s S8 then 64 else 32) = k).
  { apply Z.mod_small. destruct Bs as [-> | ->]; cbn in *; lia. }
  eexists. split; [|split].
  - cbn [run exec1]. rewrite K, KM. reflexivity.
  - destruct Bs as [-> | ->]; prest.
  - destruct Bs as [-> | ->]; destruct o; reflexivity.
Qed.

Lemma shl_imm_ok s k m : big s -> 0 <= k < nbits s ->
  slc [Sh XShl (CImm k) (R s AX)] m (fun m' => eqm (nbits s) (rg m' AX) (rg m AX * 2 ^ k)).
Proof.
  intros Bs H. eapply slc_weak; [apply sh_imm; auto|]. intros m' _ ->. pose proof (nbits_pos s).
  eapply eqm_trans; [apply eqm_mod; lia|]. apply eqm_mul; [apply eqm_mod; lia|apply eqm_refl].
Qed.

Lemma find_pow_ok k i n v p : find_pow k i n v = Some p -> i <= p < n /\ i64 (2 ^ p) = v.
Proof.
  revert i. induction k; cbn [find_pow]; intros i H; [discriminate|].
  destruct (Z.ltb_spec i n); [|discriminate]. destruct (Z.eqb_spec (i64 (2 ^ i)) v).
  - injection H as <-. split; [lia|auto].
  - apply IHk in H. lia.
Qed.

Lemma size_big n s : size_of n = Ok s -> 4 <= n -> big s /\ nbits s = 8 * n.
Proof.
  unfold size_of, big. intros H L.
  destruct (Z.eqb_spec n 1); [lia|]. destruct (Z.eqb_spec n 2); [lia|].
  destruct (Z.eqb_spec n 4) as [->|]; [injection H as <-; auto|].
  destruct (Z.eqb_spec n 8) as [->|]; [injection H as <-; auto|]. discriminate.
Qed.

Lemma imm_arith_ok o n v m code s : imm_arith o n v = Ok code -> size_of n = Ok s -> 4 <= n ->
  imm_dom s v ->
  slc code m (fun m' => eqm (nbits s) (rg m' AX) (alu_fun o (rg m AX) v)).
Proof.
  intros C S L D. destruct (size_big n s S L) as [Bs NB]. unfold imm_arith in C. rewrite S in C.
  cbn [bind] in C. destruct (arith_ins o) as [i| |] eqn:A; try discriminate. cbn [bind] in C.
  assert (G : Ok (imm_arith2 i s AX DX v) = Ok code -> slc code m
    (fun m' => eqm (nbits s) (rg m' AX) (alu_fun o (rg m AX) v))).
  { intros [= <-]. apply alu_imm2; auto. }
  pose proof (nbits_pos s) as NP.
  assert (BP : forall q, code = [Alu AXor None (R S4 AX) (R S4 AX)] -> 
    eqm (nbits s) 0 q -> slc code m (fun m' => eqm (nbits s) (rg m' AX) q)).
  { intros q -> E. eapply slc_weak; [apply (xor_self S4 AX); [left; reflexivity|auto]|].
    intros m' _ [-> _]. exact E. }
  destruct o; try discriminate A.
  - injection C as <-. apply imm_add_ok; auto.
  - injection C as <-. apply imm_sub_ok; auto.
  - (* mul *) destruct (Z.eqb_spec v 0) as [->|N0].
    { injection C as <-. apply BP; [reflexivity|]. cbn [alu_fun]. rewrite Z.mul_0_r. apply eqm_refl. }
    destruct (Z.eqb_spec v 1) as [->|N1].
    { injection C as <-. apply slc_nil. cbn [alu_fun]. rewrite Z.mul_1_r. apply eqm_refl. }
    cbn [andb] in C. destruct (Z.eqb_spec v (-1)) as [->|N2].
    { injection C as <-. eapply slc_weak; [apply (un_ok XNeg); auto|]. intros m' _ E.
      cbn [alu_fun]. replace (rg m AX * -1) with (- rg m AX) by lia. exact E. }
    destruct (if is_pow_of_two v then find_pow 64 1 (n * 8) v else None) as [k|] eqn:F; [|apply G; exact C].
    injection C as <-. destruct (is_pow_of_two v); [|discriminate].
    apply find_pow_ok in F. destruct F as [F1 F2]. eapply slc_weak; [apply shl_imm_ok; auto; lia|].
    intros m' _ E. eapply eqm_trans; [exact E|]. cbn [alu_fun]. apply eqm_mul; [apply eqm_refl|].
    rewrite <- F2. unfold i64. apply eqm_sym. eapply eqm_le; [|apply (eqm_sext 64); lia]. lia.
  - injection C as <-. apply imm_and_ok; auto.
  - (* or *) destruct (Z.eqb_spec v 0) as [->|N0].
    { injection C as <-. apply slc_nil. cbn [alu_fun]. rewrite Z.lor_0_r. apply eqm_refl. }
    destruct (Z.eqb_spec v 1) as [E1|N1]; cbn [andb] in C.
    { subst v. apply G. exact C. }
    destruct (Z.eqb_spec v (-1)) as [->|N2]; [|apply G; exact C].
    injection C as <-. eapply slc_weak; [apply (mov_imm_ok s (-1) AX); auto; lia|]. intros m' _ [E _].
    cbn [alu_fun]. rewrite Z.lor_m1_r. exact E.
  - (* xor *) destruct (Z.eqb_spec v 0) as [->|N0].
    { injection C as <-. apply slc_nil. cbn [alu_fun]. rewrite Z.lxor_0_r. apply eqm_refl. }
    destruct (Z.eqb_spec v 1) as [E1|N1]; cbn [andb] in C.
    { subst v. apply G. exact C. }
    destruct (Z.eqb_spec v (-1)) as [->|N2]; [|apply G; exact C].
    injection C as <-. eapply slc_weak; [apply (un_ok XNot); auto|]. intros m' _ E.
    cbn [alu_fun]. rewrite Z.lxor_m1_r. unfold Z.lnot, Z.pred.
    replace (- rg m AX + -1) with (- rg m AX - 1) by lia. exact E.
Qed.
End Seq2.
