(** The comparisons emitted for a switch go to the right label. *)
From Coq Require Import ZArith List Bool Lia.
From Verif Require Import Base BitLemmas IntSpec IntLemmas IntModel IntTyped IntProofs IntMain X86 CgModel CgLemmas CgInv CgSeq
  CgGen CgSpec CgMain SwitchSpec SwitchModel SwitchProofs.
Import ListNotations.
Local Open Scope Z_scope.

(** Only %rcx, %rdx and the flags change. *)
Definition only_cd (m m' : mach) : Prop := (forall r, r <> CX -> r <> DX -> rg m' r = rg m r) /\ mm m' = mm m.
Lemma only_cd_refl m : only_cd m m. Proof. split; auto. Qed.
Lemma only_cd_trans a b c : only_cd a b -> only_cd b c -> only_cd a c.
Proof. intros [A B] [C D]. split; [|congruence]. intros. rewrite C, A; auto. Qed.

Ltac cdrest := split; [let r := fresh "r" in intros r ? ?; destruct r; try congruence; reflexivity|reflexivity].

Definition imov_dom (s : size) (v : Z) : Prop := if size_eqb s S8 then - 2 ^ 63 <= v < 2 ^ 63 else - 2 ^ 31 <= v < 2 ^ 32.

Lemma imm_mov s v m : big s -> imov_dom s v ->
  exec1 (fun _ => 0) (Mov None (I v) (R s DX)) m = Some (putr s DX v m).
Proof.
  intros [-> | ->] D; cbn in D.
  - assert (K : imm_ok S4 v = true).
    { cbn. destruct (Z.leb_spec (-2147483648) v), (Z.ltb_spec v 4294967296); cbn; lia. }
    cbn [exec1 is_mem andb osize osizes app flat_map forallb size_eqb wr]. rewrite K. reflexivity.
  - cbn [exec1 is_mem andb osize osizes app flat_map forallb size_eqb wr].
    assert (K : (-2 ^ 63 <=? v) && (v <? 2 ^ 64) = true).
    { destruct (Z.leb_spec (-2 ^ 63) v); [|lia]. destruct (Z.ltb_spec v (2 ^ 64)); [reflexivity|lia]. }
    rewrite K. reflexivity.
Qed.

Section Code.
Variable sym : nat -> Z.

Lemma cmp_flags s op v m : big s -> op = AX \/ op = CX -> imov_dom s v ->
  exists m', run sym (imm_cmp s s op DX v) None m = Some (None, m') /\ only_cd m m' /\ rg m' CX = rg m CX /\
    fl m' = Some (sub_flags (nbits s) (rg m op mod 2 ^ nbits s) (v mod 2 ^ nbits s)).
Proof.
  intros Bs OP D. pose proof (nbits_pos s) as NP. unfold imm_cmp. destruct (Z.eqb_spec v 0) as [->|NZ].
  { eexists. split; [|split; [|split]].
    - cbn [run exec1 is_mem andb]. assert (OS : osize None [R s op; R s op] = Some s) by (destruct Bs as [-> | ->]; reflexivity).
      rewrite OS. cbn [rd]. reflexivity.
    - split; auto.
    - reflexivity.
    - cbn [fl setf]. unfold getr. rewrite test_flags by lia. rewrite Zmod_0_l. reflexivity. }
  destruct (in_imm_range v) eqn:K.
  - apply in_imm_spec in K. eexists. split; [|split; [|split]].
    + cbn [run exec1 is_mem andb]. assert (OS : osize None [I v; R s op] = Some s) by (destruct Bs as [-> | ->]; reflexivity).
      rewrite OS. cbn [rd]. rewrite imm32_ok by auto. reflexivity.
    + split; auto.
    + reflexivity.
    + reflexivity.
  - eexists. split; [|split; [|split]].
    + assert (E : forall r, run sym (Mov None (I v) (R s DX) :: r) None m = run sym r None (putr s DX v m)).
      { intros r. cbn [run]. pose proof (imm_mov s v m Bs D) as E. cbn [exec1 is_mem andb] in E |- *.
        destruct Bs as [-> | ->]; cbn [osize osizes app flat_map forallb size_eqb wr] in E |- *;
        match goal with |- context [if ?b then _ else _] => destruct b; [reflexivity|discriminate] end. }
      rewrite E. cbn [run exec1 is_mem andb]. assert (OS : osize None [R s DX; R s op] = Some s) by (destruct Bs as [-> | ->]; reflexivity).
      rewrite OS. cbn [rd]. reflexivity.
    + split; [|destruct Bs as [-> | ->]; reflexivity]. intros r N1 N2. destruct Bs as [-> | ->]; destruct r; try congruence; reflexivity.
    + destruct Bs as [-> | ->]; reflexivity.
    + cbn [fl setf]. unfold getr. f_equal. f_equal.
      * destruct Bs as [-> | ->]; destruct OP as [-> | ->]; reflexivity.
      * destruct Bs as [-> | ->]; cbn [rg putr setr reg_eqb nbits]; apply Z.mod_mod; lia.
Qed.

Lemma sub_cx s v m : big s -> imov_dom s v ->
  exists m', run sym (imm_sub s CX DX v) None m = Some (None, m') /\ only_cd m m' /\
    eqm (nbits s) (rg m' CX) (rg m CX - v).
Proof.
  intros Bs D. pose proof (nbits_pos s) as NP. unfold imm_sub.
  assert (E0 : eqm (nbits s) (getr s CX m) (rg m CX)) by (apply eqm_mod; lia).
  destruct (Z.eqb_spec v 0) as [->|].
  { exists m. split; [reflexivity|]. split; [apply only_cd_refl|]. rewrite Z.sub_0_r. apply eqm_refl. }
  destruct (Z.eqb_spec v 1) as [->|].
  { destruct Bs as [-> | ->]; eexists; (split; [xstep; reflexivity|]; split; [cdrest|]);
    cbn [rg setf putr setr setm reg_eqb nbits]; (eapply eqm_trans; [apply eqm_mod; lia|]); apply eqm_sub; auto using eqm_refl. }
  destruct (Z.eqb_spec v (-1)) as [->|].
  { destruct Bs as [-> | ->]; eexists; (split; [xstep; reflexivity|]; split; [cdrest|]);
    cbn [rg setf putr setr setm reg_eqb nbits]; (eapply eqm_trans; [apply eqm_mod; lia|]);
    (replace (rg m CX - -1) with (rg m CX + 1) by lia); apply eqm_add; auto using eqm_refl. }
  unfold imm_arith2. destruct (in_imm_range v) eqn:K.
  - apply in_imm_spec in K. pose proof (imm32_ok s v Bs K) as K'. destruct Bs as [-> | ->]; cbn [imm_ok nbits] in K';
    eexists; (split; [xstep; rewrite K'; reflexivity|]; split; [cdrest|]);
    cbn [rg setf putr setr setm reg_eqb nbits]; (eapply eqm_trans; [apply eqm_mod; lia|]); apply eqm_sub; auto; apply eqm_mod; lia.
  - assert (E : forall r, run sym (Mov None (I v) (R s DX) :: r) None m = run sym r None (putr s DX v m)).
    { intros r. cbn [run]. pose proof (imm_mov s v m Bs D) as E. cbn [exec1 is_mem andb] in E |- *.
      destruct Bs as [-> | ->]; cbn [osize osizes app flat_map forallb size_eqb wr] in E |- *;
      match goal with |- context [if ?b then _ else _] => destruct b; [reflexivity|discriminate] end. }
    rewrite E. destruct Bs as [-> | ->];
    eexists; (split; [xstep; reflexivity|]; split; [cdrest|]);
    cbn [rg setf putr setr setm reg_eqb nbits]; (eapply eqm_trans; [apply eqm_mod; lia|]); unfold getr;
    cbn [rg setf putr setr setm reg_eqb nbits]; (apply eqm_sub; [apply eqm_mod; lia|]);
    (eapply eqm_trans; [apply eqm_mod; lia|apply eqm_mod; lia]).
Qed.

Lemma flags_e n a b : 0 <= n -> cond_holds CcE (sub_flags n (a mod 2 ^ n) (b mod 2 ^ n)) = true <-> eqm n a b.
Proof.
  intros N. cbn [cond_holds sub_flags zf]. rewrite Z.eqb_eq. unfold eqm. pose proof (mod_bound a n N). pose proof (mod_bound b n N).
  split.
  - intros E. apply Z.mod_divide in E; [|lia]. destruct E as [q E]. assert (q = 0) by nia. lia.
  - intros ->. rewrite Z.sub_diag. apply Zmod_0_l.
Qed.
Lemma flags_be n a b : 0 <= n -> cond_holds CcBE (sub_flags n (a mod 2 ^ n) (b mod 2 ^ n)) = true <-> a mod 2 ^ n <= b mod 2 ^ n.
Proof.
  intros N. cbn [cond_holds]. rewrite orb_true_iff. pose proof (flags_e n a b N) as E. cbn [cond_holds] in E. rewrite E.
  cbn [sub_flags cf]. rewrite Z.ltb_lt. unfold eqm. lia.
Qed.

Section Type_.
Variable t : ctype.
Hypothesis T : ctype_ok t.
Definition zsz : size := if ct_size t =? 8 then S8 else S4.
Lemma big_z : big zsz. Proof. unfold zsz, big. destruct (ct_size t =? 8); auto. Qed.
Definition low : Z := if ct_uns t then 0 else - 2 ^ (nbits zsz - 1).

Lemma value_range v : ct_value t v -> low <= v < low + 2 ^ nbits zsz.
Proof.
  unfold ct_value, low, zsz. destruct T as [S0 [B W]]. intros V.
  assert (L : 1 <= ct_bits t <= if ct_size t =? 8 then 64 else 32).
  { destruct S0 as [E|[E|[E|[E|[]]]]]; rewrite <- E in *; cbn; lia. }
  assert (P : 2 ^ (ct_bits t - 1) <= 2 ^ (nbits (if ct_size t =? 8 then S8 else S4) - 1)).
  { apply Z.pow_le_mono_r; [lia|]. destruct (ct_size t =? 8); cbn [nbits]; lia. }
  assert (P' : 2 ^ ct_bits t <= 2 ^ nbits (if ct_size t =? 8 then S8 else S4)).
  { apply Z.pow_le_mono_r; [lia|]. destruct (ct_size t =? 8); cbn [nbits]; lia. }
  destruct (ct_uns t); [lia|]. destruct (ct_size t =? 8); cbn [nbits] in *;
  [change (2 ^ 64) with (2 * 2 ^ (64 - 1))|change (2 ^ 32) with (2 * 2 ^ (32 - 1))]; lia.
Qed.
Lemma dom_range a : dom t a -> low <= key t a < low + 2 ^ nbits zsz.
Proof.
  intros D. pose proof (key_range t a D) as K. destruct D as [D1 D2]. unfold low, zsz, key, u64 in *.
  destruct (Z.eqb_spec (ct_size t) 8) as [E|N].
  - rewrite andb_true_r in *. destruct (ct_uns t); cbn [nbits]; [exact K|]. change (2 ^ (64 - 1)) with (2 ^ 63). lia.
  - rewrite andb_false_r in *. specialize (D2 N). destruct (ct_uns t); cbn [nbits]; [lia|]. change (2 ^ (32 - 1)) with (2 ^ 31). lia.
Qed.
Lemma key_eqm a : eqm (nbits zsz) (key t a) a.
Proof.
  unfold zsz, key, u64. destruct (ct_size t =? 8).
  - rewrite andb_true_r. destruct (ct_uns t); [apply eqm_mod; cbn; lia|apply eqm_refl].
  - rewrite andb_false_r. apply eqm_refl.
Qed.
Lemma dom_imov a : dom t a -> imov_dom zsz a.
Proof.
  intros [D1 D2]. unfold imov_dom, zsz. destruct (Z.eqb_spec (ct_size t) 8) as [E|N]; cbn [size_eqb]; [exact D1|].
  specialize (D2 N). destruct (ct_uns t); lia.
Qed.
Lemma diff_imov a b d : dom t a -> dom t b -> key t a <= key t b -> long_of (b - a) = Ok d -> d = b - a /\ imov_dom zsz d.
Proof.
  intros [A1 A2] [B1 B2] K. unfold long_of. destruct (_ && _) eqn:E; [|discriminate]. intros [= <-]. split; [reflexivity|].
  apply andb_true_iff in E. destruct E as [E1 E2]. apply Z.leb_le in E1, E2.
  unfold imov_dom, zsz, key, u64 in *. destruct (Z.eqb_spec (ct_size t) 8) as [E|N]; cbn [size_eqb]; [lia|].
  rewrite andb_false_r in K. specialize (A2 N). specialize (B2 N). destruct (ct_uns t); lia.
Qed.

(** Membership seen in residues. *)
Lemma in_mod n B a b x : 0 <= n -> B <= a < B + 2 ^ n -> B <= b < B + 2 ^ n -> B <= x < B + 2 ^ n -> a <= b ->
  ((x - a) mod 2 ^ n <= (b - a) mod 2 ^ n <-> a <= x <= b).
Proof.
  intros N Ha Hb Hx L. rewrite (Z.mod_small (b - a)) by lia. destruct (Z_lt_le_dec x a).
  - rewrite <- (Z.mod_add (x - a) 1) by lia. rewrite Z.mod_small by lia. lia.
  - rewrite Z.mod_small by lia. lia.
Qed.
Lemma eqm_in n B a x : 0 <= n -> B <= a < B + 2 ^ n -> B <= x < B + 2 ^ n -> (eqm n x a <-> x = a).
Proof.
  intros N Ha Hx. split; [|intros ->; apply eqm_refl]. intros E.
  assert (D : (x - a) mod 2 ^ n = 0) by (rewrite Zminus_mod, E, Z.sub_diag; apply Zmod_0_l).
  apply Z.mod_divide in D; [|lia]. destruct D as [q D]. assert (q = 0) by nia. lia.
Qed.

Lemma labels_jcc c l q : labels (Jcc c l :: q) = labels q. Proof. reflexivity. Qed.
Lemma labels_sub z r v : labels (imm_sub z r DX v) = [].
Proof.
  unfold imm_sub, imm_arith2. destruct (v =? 0); [reflexivity|]. destruct (v =? 1); [reflexivity|].
  destruct (v =? -1); [reflexivity|]. destruct (in_imm_range v); reflexivity.
Qed.
Lemma labels_cases s cs : forall code, gen_cases zsz s cs = Ok code -> labels code = [].
Proof.
  induction cs as [|c cs IH]; cbn [gen_cases]; intros code H; [injection H as <-; reflexivity|].
  repeat match type of H with
  | match ?o with Some _ => _ | None => _ end = _ => destruct o
  | (if ?b then _ else _) = _ => destruct b
  | bind ?o _ = _ => let E := fresh "E" in destruct o eqn:E; cbn [bind] in H; [|discriminate..]
  end; auto; injection H as <-; cbn [app];
  match goal with |- labels (Jcc _ _ :: _) = _ => idtac | |- labels (?i :: ?r) = _ => change (labels (i :: r)) with (labels r) | _ => idtac end;
  rewrite ?labels_app, ?labels_sub, ?labels_imm_cmp2; cbn [app]; rewrite ?labels_jcc; auto.
Qed.

Definition ok_range (c : crange) : Prop := dom t (cr_lo c) /\ dom t (cr_hi c) /\ key t (cr_lo c) <= key t (cr_hi c).
Definition live (s : sw) (c : crange) (l : label) : Prop := cr_label c = Some l /\ is_default s l = false.

Lemma cases_run s v : ct_value t v -> forall cs code m, Forall ok_range cs -> gen_cases zsz s cs = Ok code ->
  eqm (nbits zsz) (rg m AX) v ->
  exists j m', run sym code None m = Some (j, m') /\ only_cd m m' /\
    match j with
    | Some l => exists c, In c cs /\ live s c l /\ cont t c v
    | None => forall c l, In c cs -> live s c l -> ~ cont t c v
    end.
Proof.
  intros V. pose proof (value_range v V) as RV. pose proof (nbits_pos zsz) as NP.
  induction cs as [|c cs IH]; intros code m OKs H A.
  { injection H as <-. exists None, m. split; [reflexivity|]. split; [apply only_cd_refl|]. intros c l []. }
  inversion OKs as [|? ? [D1 [D2 LE]] OKs']; subst. specialize (IH) with (1 := OKs').
  pose proof (dom_range _ D1) as R1. pose proof (dom_range _ D2) as R2.
  assert (SKIP : (forall l, live s c l -> ~ cont t c v) -> forall m1 q, gen_cases zsz s cs = Ok q -> only_cd m m1 ->
    exists j m', run sym q None m1 = Some (j, m') /\ only_cd m m' /\
      match j with
      | Some l => exists c0, In c0 (c :: cs) /\ live s c0 l /\ cont t c0 v
      | None => forall c0 l, In c0 (c :: cs) -> live s c0 l -> ~ cont t c0 v
      end).
  { intros NC m1 q E O. destruct (IH q m1 E) as [j [m' [RR [O' J]]]].
    { rewrite (proj1 O) by discriminate. exact A. }
    exists j, m'. split; [exact RR|]. split; [eapply only_cd_trans; eauto|]. destruct j as [l|].
    - destruct J as [c0 [IN J]]. exists c0. split; [right; exact IN|exact J].
    - intros c0 l [<-|IN] LV; [apply (NC l LV)|apply (J c0 l IN LV)]. }
  cbn [gen_cases] in H. destruct (cr_label c) as [l|] eqn:EL.
  2:{ apply (SKIP ltac:(intros l [Q _]; congruence) m code H (only_cd_refl m)). }
  destruct (is_default s l) eqn:DF.
  { apply (SKIP ltac:(intros l' [Q Q']; congruence) m code H (only_cd_refl m)). }
  (* a comparison and a jump, then the rest *)
  assert (JUMP : forall cmp cc q m1, gen_cases zsz s cs = Ok q -> run sym cmp None m = Some (None, m1) -> only_cd m m1 ->
    (exists f, fl m1 = Some f /\ (cond_holds cc f = true <-> cont t c v)) ->
    exists j m', run sym (cmp ++ [Jcc cc l] ++ q) None m = Some (j, m') /\ only_cd m m' /\
      match j with
      | Some l => exists c0, In c0 (c :: cs) /\ live s c0 l /\ cont t c0 v
      | None => forall c0 l, In c0 (c :: cs) -> live s c0 l -> ~ cont t c0 v
      end).
  { intros cmp cc q m1 E R O [f [F FC]]. rewrite run_app, R. cbn [app run]. rewrite F. destruct (cond_holds cc f).
    - rewrite run_skip by (rewrite (labels_cases s cs q E); auto). exists (Some l), m1. split; [reflexivity|]. split; [exact O|].
      exists c. split; [left; reflexivity|]. split; [split; auto|]. apply FC. reflexivity.
    - apply SKIP; auto. intros l' _ C. apply FC in C. discriminate. }
  destruct (Z.eqb_spec (cr_hi c) (cr_lo c)) as [EQ|NE].
  { destruct (gen_cases zsz s cs) as [q| |] eqn:E; try discriminate. cbn [bind] in H. injection H as <-.
    destruct (cmp_flags zsz AX (cr_lo c) m big_z (or_introl eq_refl) (dom_imov _ D1)) as [m1 [RR [O [_ F]]]].
    apply (JUMP _ CcE q m1 eq_refl RR O). eexists. split; [exact F|]. rewrite flags_e by lia. unfold cont. rewrite EQ.
    assert (X : eqm (nbits zsz) (rg m AX) (cr_lo c) <-> eqm (nbits zsz) v (key t (cr_lo c))).
    { pose proof (key_eqm (cr_lo c)) as KE. unfold eqm in *. rewrite KE, A. tauto. }
    rewrite X, (eqm_in _ low) by (auto; lia). lia. }
  destruct (Z.eqb_spec (cr_lo c) 0) as [Z0|NZ].
  { destruct (gen_cases zsz s cs) as [q| |] eqn:E; try discriminate. cbn [bind] in H. injection H as <-.
    destruct (cmp_flags zsz AX (cr_hi c) m big_z (or_introl eq_refl) (dom_imov _ D2)) as [m1 [RR [O [_ F]]]].
    apply (JUMP _ CcBE q m1 eq_refl RR O). eexists. split; [exact F|]. rewrite flags_be by lia.
    rewrite A, <- (key_eqm (cr_hi c)). unfold cont.
    rewrite <- (in_mod (nbits zsz) low) by (auto; lia).
    assert (K0 : key t (cr_lo c) = 0) by (rewrite Z0; unfold key, trunc; destruct (u64 t); reflexivity).
    rewrite K0, !Z.sub_0_r. tauto. }
  destruct (long_of (cr_hi c - cr_lo c)) as [d| |] eqn:LO; try discriminate. cbn [bind] in H.
  destruct (gen_cases zsz s cs) as [q| |] eqn:E; try discriminate. cbn [bind] in H. injection H as <-.
  destruct (diff_imov _ _ _ D1 D2 LE LO) as [ED DD].
  assert (MV : exists m0, run sym [Mov None (R zsz AX) (R zsz CX)] None m = Some (None, m0) /\ only_cd m m0 /\
    eqm (nbits zsz) (rg m0 CX) (rg m AX)).
  { destruct big_z as [-> | ->]; eexists; (split; [xstep; reflexivity|]; split; [cdrest|]);
    cbn [rg setf putr setr setm reg_eqb nbits]; unfold getr; (eapply eqm_trans; [apply eqm_mod; lia|apply eqm_mod; cbn; lia]). }
  destruct MV as [m0 [R0 [O0 C0]]].
  destruct (sub_cx zsz (cr_lo c) m0 big_z (dom_imov _ D1)) as [m1 [R1' [O1 C1]]].
  destruct (cmp_flags zsz CX d m1 big_z (or_intror eq_refl) DD) as [m2 [R2' [O2 [_ F]]]].
  change (exists j m', run sym ([Mov None (R zsz AX) (R zsz CX)] ++ imm_sub zsz CX DX (cr_lo c) ++ imm_cmp zsz zsz CX DX d ++ [Jcc CcBE l] ++ q) None m
    = Some (j, m') /\ only_cd m m' /\
    match j with
    | Some l => exists c0, In c0 (c :: cs) /\ live s c0 l /\ cont t c0 v
    | None => forall c0 l, In c0 (c :: cs) -> live s c0 l -> ~ cont t c0 v
    end).
  rewrite (app_assoc (imm_sub _ _ _ _)), (app_assoc [Mov _ _ _]).
  apply (JUMP _ CcBE q m2 eq_refl).
  - rewrite run_app, R0, run_app, R1'. exact R2'.
  - eapply only_cd_trans; [exact O0|]. eapply only_cd_trans; eauto.
  - eexists. split; [exact F|]. rewrite flags_be by lia. unfold cont. rewrite <- (in_mod (nbits zsz) low) by (auto; lia).
    assert (X1 : eqm (nbits zsz) (rg m1 CX) (v - key t (cr_lo c))).
    { eapply eqm_trans; [exact C1|]. apply eqm_sub; [eapply eqm_trans; [exact C0|exact A]|apply eqm_sym, key_eqm]. }
    assert (X2 : eqm (nbits zsz) d (key t (cr_hi c) - key t (cr_lo c))).
    { rewrite ED. apply eqm_sub; apply eqm_sym, key_eqm. }
    rewrite X1, X2. tauto.
Qed.

Lemma kap_value v : ct_value t v -> kap t v = v /\ (small t = true -> - 2 ^ 31 <= v < 2 ^ 31).
Proof.
  unfold ct_value, kap, small, trunc. intros V. destruct (negb _ && _ && _) eqn:SM; [|split; [reflexivity|discriminate]].
  apply andb_true_iff in SM. destruct SM as [SM B]. apply andb_true_iff in SM. destruct SM as [_ U]. rewrite U in V. apply Z.ltb_lt in B.
  assert (2 ^ ct_bits t <= 2 ^ 31) by (apply Z.pow_le_mono_r; lia).
  split; [apply Z.mod_small|intros _]; change (2 ^ 31) with 2147483648 in *; [change (2 ^ 32) with 4294967296|]; lia.
Qed.

(** The dispatch code as a whole. *)
Theorem dispatch opt is s brk code v m : consts64 is -> Forall (one_sign t) is ->
  read_switch opt t is = Ok s -> gen_switch t s brk = Ok code -> ct_value t v ->
  eqm (nbits zsz) (rg m AX) v ->
  exists l m', run sym code None m = Some (Some l, m') /\ only_cd m m' /\ goes t is brk v l.
Proof.
  intros C O RS GS V A. destruct (read_ok t T opt is C O) as [[_ [s' [E SI]]]|[_ E]]; [|congruence].
  rewrite RS in E. injection E as <-. destruct SI as [SV SD SB].
  unfold gen_switch in GS. fold zsz in GS. destruct (gen_cases zsz s (sw_cases s)) as [q| |] eqn:GC; try discriminate.
  cbn [bind] in GS. injection GS as <-.
  assert (OK : Forall ok_range (sw_cases s)) by (apply Forall_forall; intros c Hc; apply (i_ok _ _ _ SV c Hc)).
  destruct (cases_run s v V (sw_cases s) q m OK GC A) as [j [m' [RR [OC J]]]].
  destruct (kap_value v V) as [KV SMV].
  assert (HIT : forall l, rel t is l v -> exists lo hi, In (ICase l lo hi) is /\ cconv t lo <= v <= cconv t hi).
  { intros l [lo [hi [IN X]]]. exists lo, hi. split; [exact IN|].
    pose proof (consts64_in is _ C IN) as CI. rewrite !(key_narrow t T) in X by (apply CI; cbn; auto).
    rewrite Forall_forall in O. apply (kap_in t l lo hi v (O _ IN) SMV). rewrite KV. exact X. }
  assert (NOHIT : (forall l, ~ rel t is l v) -> forall i, In i is -> ~ hits t v i).
  { intros NR i IN HI. destruct i as [l lo hi|l]; [|exact HI]. cbn [hits] in HI. apply (NR l). exists lo, hi. split; [exact IN|].
    pose proof (consts64_in is _ C IN) as CI. rewrite !(key_narrow t T) by (apply CI; cbn; auto).
    rewrite Forall_forall in O. rewrite <- KV. apply (kap_in t l lo hi v (O _ IN) SMV). exact HI. }
  rewrite run_app, RR. destruct j as [l|].
  - destruct J as [c [IN [[LC _] CC]]]. exists l, m'. split.
    + apply run_skip. destruct (sw_default s); cbn; auto.
    + split; [exact OC|]. destruct (HIT l) as [lo [hi [IN' X]]]; [apply (i_act _ _ _ SV); eauto|]. eapply goes_case; eauto.
  - assert (ND : forall c l, In c (sw_cases s) -> cr_label c = Some l -> cont t c v -> sw_default s = Some l).
    { intros c l IN LC CC. destruct (is_default s l) eqn:DF.
      - unfold is_default in DF. destruct (sw_default s) as [d|]; [|discriminate]. apply label_eqb_eq in DF. congruence.
      - exfalso. apply (J c l IN); [split; auto|exact CC]. }
    destruct (sw_default s) as [d|] eqn:DD.
    + exists d, m'. split; [reflexivity|]. split; [exact OC|].
      destruct (existsb (fun c => match cr_label c with Some _ => (key t (cr_lo c) <=? v) && (v <=? key t (cr_hi c)) | None => false end) (sw_cases s)) eqn:EX.
      * apply existsb_exists in EX. destruct EX as [c [IN X]]. destruct (cr_label c) as [l|] eqn:LC; [|discriminate].
        apply andb_true_iff in X. destruct X as [X1 X2]. apply Z.leb_le in X1, X2.
        assert (CC : cont t c v) by (split; auto). pose proof (ND c l IN LC CC) as E. injection E as ->.
        destruct (HIT l) as [lo [hi [IN' X]]]; [apply (i_act _ _ _ SV); exists c; auto|]. eapply goes_case; eauto.
      * apply goes_default; [apply SD; auto|]. apply NOHIT. intros l RL. apply (i_act _ _ _ SV) in RL. destruct RL as [c [IN [LC [X1 X2]]]].
        assert (Q : existsb (fun c => match cr_label c with Some _ => (key t (cr_lo c) <=? v) && (v <=? key t (cr_hi c)) | None => false end) (sw_cases s) = true).
        { apply existsb_exists. exists c. split; [exact IN|]. rewrite LC. apply andb_true_iff. split; apply Z.leb_le; auto. }
        congruence.
    + exists brk, m'. split; [reflexivity|]. split; [exact OC|]. apply goes_out.
      * intros l IN. apply SD in IN. discriminate.
      * apply NOHIT. intros l RL. apply (i_act _ _ _ SV) in RL. destruct RL as [c [IN [LC CC]]]. pose proof (ND c l IN LC CC). discriminate.
Qed.

(** Code is emitted unless the difference of the ends of a range overflows. *)
Theorem dispatch_total opt is s brk : consts64 is -> Forall (one_sign t) is -> read_switch opt t is = Ok s ->
  (ct_size t = 8 -> forall x y, In x (consts is) -> In y (consts is) -> in_int64 (x - y)) ->
  exists code, gen_switch t s brk = Ok code.
Proof.
  intros C O RS DIFF. destruct (read_ok t T opt is C O) as [[_ [s' [E SI]]]|[_ E]]; [|congruence].
  rewrite RS in E. injection E as <-. destruct SI as [SV SD SB]. unfold gen_switch. fold zsz.
  assert (G : forall cs, (forall c, In c cs -> In c (sw_cases s)) -> exists q, gen_cases zsz s cs = Ok q).
  { induction cs as [|c cs IH]; intros SUB; [eexists; reflexivity|].
    destruct IH as [q E]; [intros; apply SUB; right; auto|]. cbn [gen_cases]. rewrite E. cbn [bind].
    destruct (cr_label c) as [l|]; [|eauto]. destruct (is_default s l); [eauto|]. destruct (_ =? _); [eauto|]. destruct (_ =? 0); [eauto|].
    assert (LO : exists d, long_of (cr_hi c - cr_lo c) = Ok d).
    { pose proof (SUB c (or_introl eq_refl)) as IN. destruct (i_ok _ _ _ SV c IN) as [[A1 A2] [[B1 B2] _]].
      assert (X : in_int64 (cr_hi c - cr_lo c)).
      { destruct (Z.eq_dec (ct_size t) 8) as [E8|N8].
        - destruct (SB c IN) as [[x [Ix ->]] [y [Iy ->]]]. unfold narrow. rewrite E8. cbn. apply DIFF; auto.
        - specialize (A2 N8). specialize (B2 N8). unfold in_int64. destruct (ct_uns t); lia. }
      unfold in_int64 in X. change (2 ^ 63) with 9223372036854775808 in X. unfold long_of. eexists.
      destruct (Z.leb_spec (-9223372036854775808) (cr_hi c - cr_lo c)); [|lia].
      destruct (Z.leb_spec (cr_hi c - cr_lo c) 9223372036854775807); [|lia]. reflexivity. }
    destruct LO as [d ->]. cbn [bind]. eauto. }
  destruct (G (sw_cases s) (fun c H => H)) as [q ->]. cbn [bind]. eauto.
Qed.
Lemma labels_switch s brk code : gen_switch t s brk = Ok code -> labels code = [].
Proof.
  unfold gen_switch. fold zsz. destruct (gen_cases zsz s (sw_cases s)) as [q| |] eqn:E; try discriminate. cbn [bind]. intros [= <-].
  rewrite !labels_app, (labels_cases _ _ _ E). destruct (sw_default s); reflexivity.
Qed.
End Type_.
End Code.

(** ** With the controlling expression *)
Definition ct_of (e : exp) : SwitchSpec.ctype :=
  mkct (sz (mty (IntSpec.ctype e))) (match field_width e with Some w => w | None => Z.max 8 (iwidth (IntSpec.ctype e)) end)
       (uns (mty (IntSpec.ctype e))).

Lemma field_value_range env e w v : wf env e -> field_width e = Some w -> ceval env e = Some v ->
  fmin (IntSpec.ctype e) w <= v <= fmax (IntSpec.ctype e) w.
Proof.
  revert w v. induction e; cbn [field_width wf ceval IntSpec.ctype]; intros w' v' W F V; try discriminate.
  - injection F as <-. injection V as <-. apply W.
  - destruct (ceval env e1); [|discriminate]. destruct W. eapply IHe2; eauto.
Qed.

Lemma value_ct c env e n v : (forall a b, same c a b = true -> a = b) -> wf env e -> known_ok (known c) env e ->
  plain_casts e -> elab c e = Ok n -> ceval env e = Some v -> ct_value (ct_of e) v.
Proof.
  intros CO W K P E V. unfold ct_value, ct_of. cbn [ct_uns ct_bits]. destruct (field_width e) as [w|] eqn:F.
  - pose proof (field_value_range env e w v W F V) as R. unfold fmin, fmax in R.
    destruct (IntSpec.ctype e); cbn [mty uns isigned] in *; cbn; lia.
  - pose proof (elab_ok c env CO e W K P n E) as R. pose proof (teval_range env n (er_wt _ _ _ _ R) (er_v _ _ _ _ R) v (er_ev _ _ _ _ R v V)) as X.
    rewrite (er_ty _ _ _ _ R), ity_mty in X. unfold in_range, imin, imax in X.
    destruct (IntSpec.ctype e); cbn [mty uns isigned iwidth] in *; cbn in *; lia.
Qed.

Theorem switch_code G sym env e n f st st' m opt is s brk code post v :
  (forall a b, same (gc G) a b = true -> a = b) ->
  wf env e -> known_ok (known (gc G)) env e -> plain_casts e -> elab (gc G) e = Ok n ->
  saved (lptr G) -> 0 <= lvar_sz G <= peak st -> peak st' <= rg m (lptr G) < 2 ^ 64 ->
  stored G sym (rg m) (mm m) (rg m (lptr G) - peak st') (rg m (lptr G) - lvar_sz G) env e ->
  gen G f MExpr n st = Ok st' -> ceval env e = Some v ->
  ctype_ok (ct_of e) -> (forall z, In z (consts is) -> in_int64 z) -> Forall (one_sign (ct_of e)) is ->
  read_switch opt (ct_of e) is = Ok s -> gen_switch (ct_of e) s brk = Ok code ->
  fresh_labels (out st ++ code ++ post) (cnt st) (cnt st') ->
  exists l, goes (ct_of e) is brk v l /\ forall k, find_label l (out st' ++ code ++ post) = Some k ->
    exists m', steps sym (out st' ++ code ++ post) (length (out st), m) (k, m') /\ kept G (peak st') m m'.
Proof.
  intros CO W K P E FS FL FP HS H V T C O RS GS FR.
  destruct (expr_code G sym env e n f st st' m CO W K P E FS FL FP HS v (code ++ post) H V FR) as [m1 [ST [A KP]]].
  assert (A' : eqm (nbits (zsz (ct_of e))) (rg m1 AX) v).
  { assert (B : nbits (zsz (ct_of e)) = result_bits (IntSpec.ctype e)).
    { unfold zsz, ct_of, result_bits. cbn [ct_size]. destruct (IntSpec.ctype e); reflexivity. }
    unfold eqm. rewrite B. exact A. }
  destruct (dispatch sym (ct_of e) T opt is s brk code v m1 C O RS GS (value_ct _ _ _ _ _ CO W K P E V) A') as [l [m' [R [OC GO]]]].
  exists l. split; [exact GO|]. intros k FK. exists m'.
  assert (ND : NoDup (labels (out st' ++ code ++ post))).
  { set (bs := fun _ : reg => 0).
    assert (F0 : frame_ok G bs (- 1)) by (unfold frame_ok, lpv, bs; repeat split; try lia; exact FS).
    destruct (gen_ok G sym env bs (-1) (mm m) F0 CO f MExpr n st st' H) as [c [g [s0 [X _]]]].
    rewrite (ex_out _ _ _ _ _ _ X), <- app_assoc. eapply lok_fresh; [apply (ex_lok _ _ _ _ _ _ X)|exact FR]. }
  split.
  - eapply steps_trans; [exact ST|]. apply (run_steps_out sym code (out st') post None m1 l m' k ND R FK).
  - destruct KP as [K1 K2]. destruct OC as [O1 O2]. split.
    + intros r Hr. rewrite O1; [apply K1; auto| |]; destruct Hr as [-> |[-> | ->]]; discriminate.
    + intros a Ha. rewrite O2. apply K2. exact Ha.
Qed.

(** Dispatch inside any program. *)
Theorem dispatch_steps sym t opt is s brk code pre post v m : ctype_ok t ->
  (forall z, In z (consts is) -> in_int64 z) -> Forall (one_sign t) is ->
  read_switch opt t is = Ok s -> gen_switch t s brk = Ok code -> ct_value t v ->
  rg m AX mod 2 ^ (if ct_size t =? 8 then 64 else 32) = v mod 2 ^ (if ct_size t =? 8 then 64 else 32) ->
  NoDup (labels (pre ++ code ++ post)) ->
  exists l, goes t is brk v l /\ forall k, find_label l (pre ++ code ++ post) = Some k ->
    exists m', steps sym (pre ++ code ++ post) (length pre, m) (k, m') /\
      mm m' = mm m /\ forall r, r <> CX -> r <> DX -> rg m' r = rg m r.
Proof.
  intros T C O RS GS V A ND.
  assert (A' : eqm (nbits (zsz t)) (rg m AX) v) by (unfold eqm, zsz; destruct (ct_size t =? 8); exact A).
  destruct (dispatch sym t T opt is s brk code v m C O RS GS V A') as [l [m' [R [[O1 O2] GO]]]].
  exists l. split; [exact GO|]. intros k FK. exists m'. split; [|auto].
  apply (run_steps_out sym code pre post None m l m' k ND R FK).
Qed.

Theorem accepted t opt is : ctype_ok t -> (forall z, In z (consts is) -> in_int64 z) -> Forall (one_sign t) is ->
  (valid t is <-> exists s, read_switch opt t is = Ok s) /\ (~ valid t is <-> read_switch opt t is = Abort).
Proof.
  intros T C O. destruct (read_ok t T opt is C O) as [[V [s [E _]]]|[V E]]; rewrite E; split; split; intros; try contradiction; eauto; try discriminate.
  destruct H as [? H]. discriminate.
Qed.

(** In a valid switch control goes to one place only. *)
Theorem goes_one {L} t (is : list (item L)) brk v l l' : valid t is -> goes t is brk v l -> goes t is brk v l' -> l = l'.
Proof.
  intros [_ V].
  assert (PC : forall i j, In i is -> In j is -> i = j \/ compatible t i j \/ compatible t j i) by (intros i j; apply (ForallOrdPairs_In V)).
  intros G1 G2. destruct G1 as [l1 lo hi IN X|l1 IN X|N X], G2 as [l2 lo2 hi2 IN2 X2|l2 IN2 X2|N2 X2].
  - destruct (PC _ _ IN IN2) as [E|[Q|Q]]; [injection E as -> _ _; reflexivity| |]; exfalso; apply (Q v); split; assumption.
  - exfalso. apply (X2 _ IN). exact X.
  - exfalso. apply (X2 _ IN). exact X.
  - exfalso. apply (X _ IN2). exact X2.
  - destruct (PC _ _ IN IN2) as [E|[Q|Q]]; [injection E as ->; reflexivity| |]; destruct Q.
  - exfalso. apply (N2 _ IN).
  - exfalso. apply (X _ IN2). exact X2.
  - exfalso. apply (N _ IN2).
  - reflexivity.
Qed.
