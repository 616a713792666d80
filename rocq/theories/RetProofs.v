From Coq Require Import ZArith List Bool Lia.
From Verif Require Import Base BitLemmas X86 Sse MemSpec MemModel MemProofs CgLemmas FrameModel CallSpec CallModel CallProofs CallClass CallPlan CallRun CallEnd RetModel.
Import ListNotations.
Local Open Scope Z_scope.
Local Opaque natural.

Lemma reg_bytes' : forall s r v m k, 0 <= k < Z.of_nat (nbytes s) ->
  byte_eq ((rg (putr s r v m) r mod 2 ^ 64) / 2 ^ (8 * k)) (v / 2 ^ (8 * k)).
Proof.
  intros s r v m k H. unfold byte_eq.
  assert (B : 8 * k + 8 <= nbits s) by (destruct s; cbn [nbits nbytes] in *; lia).
  assert (B2 : nbits s <= 64) by (destruct s; cbn [nbits]; lia).
  rewrite byte_of_mod by lia. rewrite <- (byte_of_mod _ k (nbits s)) by lia.
  change (rg (putr s r v m) r mod 2 ^ nbits s) with (getr s r (putr s r v m)). rewrite getr_putr.
  apply byte_of_mod; lia.
Qed.

Section Run.
Variable sym : nat -> Z.

Lemma conv8 : forall x, 0 <= x <= 8 -> int_conv x = x.
Proof.
  intros x H. unfold int_conv, sext. change (2 ^ (32 - 1)) with 2147483648. change (2 ^ 32) with 4294967296.
  rewrite Z.mod_small by lia. destruct (Z.ltb_spec x 2147483648); lia.
Qed.

(** Registers of the result. *)
Definition rreg (gp : nat) : reg := if Nat.eqb gp 0 then AX else DX.
Definition holds (m : xmach) (f : bool) (gp fp : nat) (n : Z) (val : Z -> Z) (off : Z) : Prop :=
  forall k, 0 <= k < n ->
   byte_eq ((if f then xr m fp else rg (im m) (rreg gp) mod 2 ^ 64) / 2 ^ (8 * k)) (val (off + k)).

(** Loading one part. *)
Lemma load_fp : forall n b o fp m a, n = 4 \/ n = 8 -> addr_of sym (im m) b o a n ->
  exists m', xexec sym (if n =? 4 then MovssLd b o fp else MovsdLd b o fp) m = Some m' /\ im m' = im m /\
    (forall x, x <> fp -> xr m' x = xr m x) /\ forall gp val off, (forall k, 0 <= k < n -> mm (im m) (a + k) = val (off + k)) -> holds m' true gp fp n val off.
Proof.
  intros n b o fp m a Hn AD.
  assert (EA : ea sym b o (im m) = a).
  { replace o with (0 + o) by lia. rewrite (ea_at sym _ _ _ _ _ 0 AD) by lia. lia. }
  assert (X : xexec sym (if n =? 4 then MovssLd b o fp else MovsdLd b o fp) m = Some (ldx sym (Z.to_nat n) b o fp m))
    by (destruct Hn as [->| ->]; reflexivity).
  eexists. split; [exact X|]. split; [reflexivity|]. split.
  - intros x H. unfold ldx, setx. cbn [xr]. destruct (Nat.eqb_spec x fp); [congruence|reflexivity].
  - intros gp val off HV k Hk. unfold ldx, setx. cbn [xr]. rewrite Nat.eqb_refl, EA, <- HV by lia. apply loadn_byte. lia.
Qed.
Lemma load_gp : forall n o m a gp, 1 <= n <= 8 -> addr_of sym (im m) (BReg CX) o a n ->
  let sz := if 4 <? n then S8 else if 2 <? n then S4 else if 1 <? n then S2 else S1 in
  exists m', xexec sym (G (Mov None (M (BReg CX) o) (R sz (rreg gp)))) m = Some m' /\ mm (im m') = mm (im m) /\
    only_reg (rreg gp) (im m) (im m') /\ xr m' = xr m /\
    forall fp val off, (forall k, 0 <= k < n -> mm (im m) (a + k) = val (off + k)) -> holds m' false gp fp n val off.
Proof.
  intros n o m a gp Hn AD sz.
  assert (EA : ea sym (BReg CX) o (im m) = a).
  { replace o with (0 + o) by lia. rewrite (ea_at sym _ _ _ _ _ 0 AD) by lia. lia. }
  assert (NS : n <= Z.of_nat (nbytes sz)).
  { unfold sz. destruct (Z.ltb_spec 4 n); [|destruct (Z.ltb_spec 2 n); [|destruct (Z.ltb_spec 1 n)]]; cbn [nbytes]; lia. }
  clearbody sz.
  eexists. split; [cbn [xexec]; rewrite mov_load; reflexivity|]. cbn [im xr]. split; [apply putr_mem|]. split; [apply putr_only|].
  split; [reflexivity|]. intros fp val off HV k Hk. cbn [im].
  eapply eq_trans; [apply reg_bytes'; lia|]. rewrite EA, <- HV by lia. apply loadn_byte. lia.
Qed.

Definition part_ok (t : aty) : Prop := 1 <= asize t <= 16 /\ (fpe t 0 = true -> Z.min 8 (asize t) = 4 \/ Z.min 8 (asize t) = 8) /\
  (8 < asize t -> fpe t 1 = true -> asize t - 8 = 4 \/ asize t - 8 = 8).
Lemma parts_ok : forall n a ms, argument (ARec n a ms) -> full (ARec n a ms) -> n <= 16 -> part_ok (ARec n a ms).
Proof.
  intros n a ms (N & Sz & _) Fu H. cbn [asize] in Sz. unfold part_ok. cbn [asize]. split; [lia|].
  pose proof (mod4_part n ltac:(lia)) as M4. split.
  - intros F. specialize (M4 (fp_part _ 0 N Fu H ltac:(cbn [asize]; lia) F)). lia.
  - intros L F. specialize (M4 (fp_part _ 1 N Fu H ltac:(cbn [asize]; lia) F)). lia.
Qed.

(** ** The callee *)
Definition lpiece (f : bool) (sptr : reg) (gp fp : nat) (ofs n : Z) : list xinstr :=
  if f then [if n =? 4 then MovssLd (BReg sptr) ofs fp else MovsdLd (BReg sptr) ofs fp]
  else (if Nat.eqb gp 0 then [G (Mov None (R S8 AX) (R S8 CX))] else [])
       ++ [G (Mov None (M (BReg CX) ofs) (R (if 4 <? n then S8 else if 2 <? n then S4 else if 1 <? n then S2 else S1) (rreg gp)))].
Definition spiece (f : bool) (gp fp : nat) (b : base) (o n : Z) : outcome (list xinstr) :=
  if f then Ok [if n =? 4 then MovssSt fp b o else MovsdSt fp b o] else store_gp2 (rreg gp) n o b.
Lemma reg_code : forall n a ms, natural (ARec n a ms) -> 1 <= n <= 16 ->
  let t := ARec n a ms in let f0 := fpe t 0 in let f1 := fpe t 1 in
  copy_struct_reg t = Ok (lpiece f0 AX 0 0 0 (Z.min 8 n) ++
    if 8 <? n then lpiece f1 (if f0 then AX else CX) (if f0 then 0 else 1) (if f0 then 1 else 0) 8 (n - 8) else []).
Proof.
  intros n a ms N Hn t f0 f1. unfold copy_struct_reg. cbn [asize t].
  replace (Z.to_nat n) with (S (Z.to_nat (n - 1))) by lia. cbn [struct_reg_loop]. change (asize t) with n.
  destruct (Z.ltb_spec 0 n); [|lia]. rewrite Z.sub_0_r. rewrite (conv8 (Z.min 8 n)) by lia.
  unfold chunk_flonum at 1. cbn [Z.eqb]. unfold t at 1. rewrite has1 by assumption. fold t. fold f0. cbn [bind].
  rewrite int_ok by (unfold INT_MIN, INT_MAX; lia). cbn [bind Nat.eqb]. change (0 + 8) with 8.
  destruct (Z.ltb_spec 8 n).
  - replace (Z.to_nat (n - 1)) with (S (Z.to_nat (n - 2))) by lia.
    rewrite (conv8 (Z.min 8 (n - 8))) by lia. replace (Z.min 8 (n - 8)) with (n - 8) by lia. replace (Z.min 8 n) with 8 by lia.
    unfold chunk_flonum. cbn [Z.eqb]. assert (H2 := has2 n a ms N). fold t in H2. rewrite !H2. fold f1. cbn [bind].
    rewrite int_ok by (unfold INT_MIN, INT_MAX; lia). cbn [bind].
    set (k := Z.to_nat (n - 2)).
    assert (E0 : forall sp g f, struct_reg_loop (S k) t sp g f (8 + 8) = Ok []).
    { intros. cbn [struct_reg_loop]. unfold t. cbn [asize]. destruct (Z.ltb_spec (8 + 8) n); [lia|reflexivity]. }
    rewrite !E0. cbn [bind]. destruct f0, f1; reflexivity.
  - replace (Z.min 8 n) with n by lia. destruct f0; reflexivity.
Qed.
Lemma buf_code : forall n a ms b vo, natural (ARec n a ms) -> 1 <= n <= 16 -> INT_MIN <= vo -> vo + n <= INT_MAX ->
  let t := ARec n a ms in let f0 := fpe t 0 in let f1 := fpe t 1 in
  copy_ret_buffer t b vo = 
    do c1 <- spiece f0 0 0 b vo (Z.min 8 n);
    do c2 <- (if 8 <? n then spiece f1 (if f0 then 0 else 1) (if f0 then 1 else 0) b (8 + vo) (n - 8) else Ok []);
    Ok (c1 ++ c2).
Proof.
  assert (IM : INT_MIN = -2147483648 /\ INT_MAX = 2147483647) by (split; reflexivity).
  intros n a ms b vo N Hn V1 V2 t f0 f1. unfold copy_ret_buffer. cbn [asize t].
  replace (Z.to_nat n) with (S (Z.to_nat (n - 1))) by lia. cbn [ret_buffer_loop]. change (asize t) with n.
  destruct (Z.ltb_spec 0 n); [|lia]. rewrite Z.sub_0_r. rewrite (conv8 (Z.min 8 n)) by lia.
  unfold chunk_flonum at 1. cbn [Z.eqb]. unfold t at 1. rewrite has1 by assumption. fold t. fold f0. cbn [bind].
  rewrite !int_ok by lia. cbn [bind Nat.eqb]. change (0 + 8) with 8. change (0 + vo) with vo.
  destruct (Z.ltb_spec 8 n).
  - replace (Z.to_nat (n - 1)) with (S (Z.to_nat (n - 2))) by lia.
    rewrite (conv8 (Z.min 8 (n - 8))) by lia. replace (Z.min 8 (n - 8)) with (n - 8) by lia. replace (Z.min 8 n) with 8 by lia.
    unfold chunk_flonum. cbn [Z.eqb]. assert (H2 := has2 n a ms N). fold t in H2. rewrite !H2. fold f1. cbn [bind].
    rewrite int_ok by lia. cbn [bind]. rewrite int_ok by lia. cbn [bind].
    set (k := Z.to_nat (n - 2)).
    assert (E0 : forall g f, ret_buffer_loop (S k) t b vo g f (8 + 8) = Ok []).
    { intros. cbn [ret_buffer_loop]. unfold t. cbn [asize]. destruct (Z.ltb_spec (8 + 8) n); [lia|reflexivity]. }
    rewrite !E0. cbn [bind]. unfold spiece, rreg.
    destruct f0, f1; cbn [bind Nat.eqb]; try reflexivity;
      repeat match goal with |- context [store_gp2 ?a ?b ?c ?d] => destruct (store_gp2 a b c d); cbn [bind] end; try reflexivity;
      rewrite ?app_nil_r; reflexivity.
  - replace (Z.min 8 n) with n by lia. unfold spiece, rreg. destruct f0; cbn [bind Nat.eqb]; try reflexivity.
    all: repeat match goal with |- context [store_gp2 ?a ?b ?c ?d] => destruct (store_gp2 a b c d); cbn [bind] end; try reflexivity;
      rewrite ?app_nil_r; reflexivity.
Qed.

Definition src_at (m : xmach) (sp : reg) (src n : Z) : Prop := rg (im m) sp = src /\ 0 <= src /\ src + n <= 2 ^ 64.
Definition ret_kept (m m' : xmach) : Prop :=
  mm (im m') = mm (im m) /\ forall r, r <> AX -> r <> CX -> r <> DX -> rg (im m') r = rg (im m) r.
Lemma lpiece_ok : forall f sp gp fp ofs n src N m val,
  1 <= n <= 8 -> (f = true -> n = 4 \/ n = 8) -> 0 <= ofs -> ofs + n <= N -> src_at m sp src N -> sp = AX \/ sp = CX ->
  (f = false -> gp = 0%nat -> sp = AX) -> (gp <> 0%nat -> sp = CX) ->
  (forall k, 0 <= k < N -> mm (im m) (src + k) = val k) ->
  exists m', xrun sym (lpiece f sp gp fp ofs n) m = Some m' /\ ret_kept m m' /\
    src_at m' (if f then sp else CX) src N /\ holds m' f gp fp n val ofs /\
    (if f then im m' = im m /\ forall x, x <> fp -> xr m' x = xr m x
     else xr m' = xr m /\ (gp <> 0%nat -> rg (im m') AX = rg (im m) AX)).
Proof.
  intros f sp gp fp ofs n src N m val Hn Hf H0 HN (S1 & S2 & S3) Hsp Hg Hg' HV. unfold lpiece. destruct f.
  - destruct (load_fp n (BReg sp) ofs fp m (src + ofs) (Hf eq_refl)) as (m' & R1 & R2 & R3 & R4).
    { split; [rewrite S1; lia|lia]. }
    exists m'. cbn [xrun]. rewrite R1. split; [reflexivity|]. split; [unfold ret_kept; rewrite R2; split; reflexivity|].
    split; [unfold src_at; rewrite R2; auto|]. split; [|split; assumption].
    apply R4. intros k Hk. rewrite <- HV by lia. f_equal. lia.
  - (* rcx holds the address *)
    assert (X : exists m1, xrun sym (if Nat.eqb gp 0 then [G (Mov None (R S8 AX) (R S8 CX))] else []) m = Some m1 /\
      mm (im m1) = mm (im m) /\ only_reg CX (im m) (im m1) /\ xr m1 = xr m /\ rg (im m1) CX = src).
    { destruct (Nat.eqb_spec gp 0).
      - eexists. split; [reflexivity|]. cbn [im xr]. split; [apply (putr_mem S8 CX)|]. split; [apply (putr_only S8 CX)|]. split; [reflexivity|].
        cbn [putr setr rg reg_eqb]. unfold getr. cbn [nbits]. rewrite Z.mod_mod by lia. rewrite (Hg eq_refl e) in S1. rewrite S1. apply Z.mod_small. lia.
      - exists m. split; [reflexivity|]. split; [reflexivity|]. split; [apply only_refl|]. split; [reflexivity|].
        rewrite (Hg' n0) in S1. exact S1. }
    destruct X as (m1 & R1 & Q1 & Q2 & Q3 & Q4).
    destruct (load_gp n ofs m1 (src + ofs) gp Hn) as (m' & R2 & P1 & P2 & P3 & P4).
    { split; [rewrite Q4; lia|lia]. }
    exists m'. rewrite (xrun_app _ _ _ _ _ R1). cbn [xrun]. rewrite R2. split; [reflexivity|].
    assert (NC : rreg gp <> CX) by (unfold rreg; destruct (Nat.eqb gp 0); discriminate).
    split; [|split; [|split; [|split]]].
    + split; [congruence|]. intros r A1 A2 A3. rewrite P2, Q2; auto. unfold rreg; destruct (Nat.eqb gp 0); assumption.
    + unfold src_at. rewrite P2 by congruence. auto.
    + apply P4. intros k Hk. rewrite Q1, <- HV by lia. f_equal. lia.
    + congruence.
    + intros NG. rewrite P2, Q2; try discriminate; [reflexivity|]. unfold rreg. destruct (Nat.eqb_spec gp 0); [congruence|discriminate].
Qed.

Lemma spiece_ok : forall f gp fp b o n a, 1 <= n <= 8 -> (f = true -> n = 4 \/ n = 8) -> b <> BReg AX -> b <> BReg DX ->
  INT_MIN <= o -> o + n <= INT_MAX ->
  exists c, spiece f gp fp b o n = Ok c /\
  forall m val off, addr_of sym (im m) b o a n -> holds m f gp fp n val off ->
  exists m', xrun sym c m = Some m' /\ replaced (mm (im m)) (mm (im m')) a n (fun k => val (off + k)) /\
    only_reg (rreg gp) (im m) (im m') /\ (f = true -> rg (im m') = rg (im m)) /\ xr m' = xr m.
Proof.
  intros f gp fp b o n a Hn Hf B1 B2 O1 O2. unfold spiece. destruct f.
  - eexists. split; [reflexivity|]. intros m val off AD HH.
    assert (X : xexec sym (if n =? 4 then MovssSt fp b o else MovsdSt fp b o) m = Some (stx sym (Z.to_nat n) fp b o m))
      by (destruct (Hf eq_refl) as [->| ->]; reflexivity).
    eexists. split; [cbn [xrun]; rewrite X; reflexivity|].
    assert (EA : ea sym b o (im m) = a).
    { replace o with (0 + o) by lia. rewrite (ea_at sym _ _ _ _ _ 0 AD) by lia. lia. }
    unfold stx, setmem. cbn [im setm mm xr rg]. rewrite EA. split; [split|].
    + intros k Hk. unfold byte_eq. rewrite storen_byte by lia. rewrite Z.mod_mod by lia. apply HH, Hk.
    + intros x Hx. apply storen_other. lia.
    + split; [intros x _; reflexivity|]. split; reflexivity.
  - assert (NB : b <> BReg (rreg gp)) by (unfold rreg; destruct (Nat.eqb gp 0); assumption).
    destruct (store_ok sym (rreg gp) b o n a NB Hn O1 O2) as (c & E & K). exists c. split; [exact E|].
    intros m val off AD HH. destruct (K m AD) as (m' & R1 & R2 & R3 & R4). exists m'. split; [exact R1|].
    split; [|split; [exact R3|split; [discriminate|exact R4]]].
    destruct R2 as [R2 R2']. split; [|exact R2']. intros k Hk. eapply eq_trans; [apply R2, Hk|]. apply HH, Hk.
Qed.

Lemma return_ok : forall n a ms b vo src dst, let t := ARec n a ms in
  argument t -> full t -> n <= 16 -> b <> BReg AX -> b <> BReg DX -> INT_MIN <= vo -> vo + n <= INT_MAX ->
  exists c1 c2, copy_struct_reg t = Ok c1 /\ copy_ret_buffer t b vo = Ok c2 /\
  forall m, addr_of sym (im m) (BReg AX) 0 src n ->
  exists m1, xrun sym c1 m = Some m1 /\ mm (im m1) = mm (im m) /\
    (forall r, r <> AX -> r <> CX -> r <> DX -> rg (im m1) r = rg (im m) r) /\
    forall m2, rg (im m2) AX = rg (im m1) AX -> rg (im m2) DX = rg (im m1) DX -> xr m2 0%nat = xr m1 0%nat -> xr m2 1%nat = xr m1 1%nat ->
      addr_of sym (im m2) b vo dst n ->
    exists m3, xrun sym c2 m2 = Some m3 /\ replaced (mm (im m2)) (mm (im m3)) dst n (fun k => mm (im m) (src + k)) /\
      (forall r, r <> AX -> r <> DX -> rg (im m3) r = rg (im m2) r).
Proof.
  assert (IM : INT_MIN = -2147483648 /\ INT_MAX = 2147483647) by (split; reflexivity).
  intros n a ms b vo src dst t At Fu Hn B1 B2 V1 V2.
  pose proof (parts_ok n a ms At Fu Hn) as (P0 & P1 & P2). fold t in P1, P2. pose proof At as (N & Sz & _). cbn [asize t] in P0, P1, P2, Sz.
  pose proof (reg_code n a ms N ltac:(lia)) as E1. cbv zeta in E1. fold t in E1.
  pose proof (buf_code n a ms b vo N ltac:(lia) V1 V2) as E2. cbv zeta in E2. fold t in E2.
  destruct (spiece_ok (fpe t 0) 0 0 b vo (Z.min 8 n) dst ltac:(lia) P1 B1 B2 V1 ltac:(lia)) as (s1 & ES1 & KS1).
  rewrite ES1 in E2. cbn [bind] in E2.
  destruct (Z.ltb_spec 8 n) as [L8|L8].
  - set (g1 := if fpe t 0 then 0%nat else 1%nat) in *. set (f1 := if fpe t 0 then 1%nat else 0%nat) in *.
    destruct (spiece_ok (fpe t 1) g1 f1 b (8 + vo) (n - 8) (dst + 8) ltac:(lia) (P2 L8) B1 B2 ltac:(lia) ltac:(lia)) as (s2 & ES2 & KS2).
    rewrite ES2 in E2. cbn [bind] in E2. do 2 eexists. split; [exact E1|]. split; [exact E2|].
    intros m (A1 & A2 & A3).
    destruct (lpiece_ok (fpe t 0) AX 0 0 0 (Z.min 8 n) src n m (fun k => mm (im m) (src + k))) as (ma & R1 & K1 & S1 & H1 & X1); try lia; auto.
    { split; [lia|]. split; [exact A2|exact A3]. }
    destruct (lpiece_ok (fpe t 1) (if fpe t 0 then AX else CX) g1 f1 8 (n - 8) src n ma (fun k => mm (im m) (src + k))) as (mb & R2 & K2 & S2 & H2 & X2);
      try lia; auto.
    { destruct (fpe t 0); auto. }
    { intros _. unfold g1. destruct (fpe t 0); [reflexivity|discriminate]. }
    { unfold g1. destruct (fpe t 0); [congruence|reflexivity]. }
    { intros k Hk. destruct K1 as [K1 _]. rewrite K1. reflexivity. }
    exists mb. rewrite (xrun_app _ _ _ _ _ R1). split; [exact R2|].
    destruct K1 as [K1 K1']. destruct K2 as [K2 K2']. split; [congruence|].
    split. { intros r Q1 Q2 Q3. rewrite K2', K1'; auto. }
    intros m2 D1 D2 D3 D4 (AD1 & AD2 & AD3).
    assert (HA : holds m2 (fpe t 0) 0 0 (Z.min 8 n) (fun k => mm (im m) (src + k)) 0).
    { unfold holds in *. unfold f1, g1 in *. destruct (fpe t 0).
      - rewrite D3. replace (xr mb 0%nat) with (xr ma 0%nat); [exact H1|].
        destruct (fpe t 1); [symmetry; apply X2; discriminate|destruct X2 as [-> _]; reflexivity].
      - change (rreg 0) with AX in *. rewrite D1. replace (rg (im mb) AX) with (rg (im ma) AX); [exact H1|].
        destruct (fpe t 1); [destruct X2 as [-> _]; reflexivity|symmetry; apply X2; discriminate]. }
    assert (HB : holds m2 (fpe t 1) g1 f1 (n - 8) (fun k => mm (im m) (src + k)) 8).
    { unfold holds in *. unfold f1, g1 in *. destruct (fpe t 1).
      - destruct (fpe t 0); rewrite ?D3, ?D4; exact H2.
      - destruct (fpe t 0); [change (rreg 0) with AX in *|change (rreg 1) with DX in *]; rewrite ?D1, ?D2; exact H2. }
    destruct (KS1 m2 (fun k => mm (im m) (src + k)) 0 ltac:(split; [exact AD1|lia]) HA) as (mc & R3 & Q1 & Q2 & Q3 & Q4).
    assert (HB' : holds mc (fpe t 1) g1 f1 (n - 8) (fun k => mm (im m) (src + k)) 8).
    { unfold holds in *. rewrite Q4. destruct (fpe t 1); [exact HB|].
      replace (rg (im mc) (rreg g1)) with (rg (im m2) (rreg g1)); [exact HB|]. symmetry.
      unfold g1 in *. destruct (fpe t 0); [rewrite Q3 by reflexivity; reflexivity|]. apply Q2. discriminate. }
    destruct (KS2 mc (fun k => mm (im m) (src + k)) 8) as (md & R4 & Q5 & Q6 & Q7 & Q8); [|exact HB'|].
    { split; [|lia]. destruct b as [r|s]; [|lia]. rewrite Q2; [lia|]. intros ->. apply B1. reflexivity. }
    exists md. rewrite (xrun_app _ _ _ _ _ R3). split; [exact R4|]. split.
    + replace (Z.min 8 n) with 8 in Q1 by lia. replace n with (8 + (n - 8)) by lia.
      eapply (replaced_app _ _ _ dst 8 (n - 8)); [lia|lia|exact Q1|exact Q5| |]; intros k Hk; reflexivity.
    + intros r N1 N2. rewrite Q6, Q2; auto. unfold rreg. destruct (Nat.eqb g1 0); assumption.
  - cbn [bind] in E2. rewrite app_nil_r in E1, E2. do 2 eexists. split; [exact E1|]. split; [exact E2|].
    intros m (A1 & A2 & A3).
    destruct (lpiece_ok (fpe t 0) AX 0 0 0 (Z.min 8 n) src n m (fun k => mm (im m) (src + k))) as (ma & R1 & K1 & S1 & H1 & X1); try lia; auto.
    { split; [lia|]. split; [exact A2|exact A3]. }
    exists ma. split; [exact R1|]. destruct K1 as [K1 K1']. split; [exact K1|]. split; [exact K1'|].
    intros m2 D1 D2 D3 D4 AD. replace (Z.min 8 n) with n in * by lia.
    destruct (KS1 m2 (fun k => mm (im m) (src + k)) 0 AD) as (mc & R3 & Q1 & Q2 & Q3 & Q4).
    { unfold holds in *. change (rreg 0) with AX in *. rewrite D1, D3. exact H1. }
    exists mc. split; [exact R3|]. split; [exact Q1|]. intros r N1 N2. apply Q2. exact N1.
Qed.

(** ** Results in memory *)
Lemma return_mem_ok : forall t lb pofs src dst, 0 <= asize t <= INT_MAX -> dst <= src \/ src + asize t <= dst ->
  exists c, copy_struct_mem t lb pofs = Ok c /\
  forall m p, addr_of sym (im m) lb pofs p 8 -> loadn 8 p (mm (im m)) = dst -> addr_of sym (im m) (BReg AX) 0 src (asize t) ->
    0 <= dst -> dst + asize t <= 2 ^ 64 -> dst < 2 ^ 64 ->
  exists m', xrun sym c m = Some m' /\ rg (im m') AX = dst /\
    replaced (mm (im m)) (mm (im m')) dst (asize t) (fun k => mm (im m) (src + k)) /\
    forall r, r <> AX -> r <> CX -> r <> DX -> rg (im m') r = rg (im m) r.
Proof.
  intros t lb pofs src dst Hs OV. unfold copy_struct_mem.
  assert (IC : int_conv (asize t) = asize t).
  { unfold INT_MAX in Hs. change (2 ^ 31 - 1) with 2147483647 in Hs.
    unfold int_conv, sext. change (2 ^ (32 - 1)) with 2147483648. change (2 ^ 32) with 4294967296.
    rewrite Z.mod_small by lia. destruct (Z.ltb_spec (asize t) 2147483648); [reflexivity|lia]. }
  rewrite IC.
  destruct (copy_ok sym (BReg AX) 0 (BReg CX) 0 (asize t) src dst ltac:(discriminate) ltac:(discriminate) Hs OV) as (c & E & K).
  rewrite E. cbn [bind]. eexists. split; [reflexivity|]. intros m p (A1 & A2 & A3) LD AX0 D0 D1 D2.
  set (m1 := mkx (putr S8 CX (loadn (nbytes S8) (ea sym lb pofs (im m)) (mm (im m))) (im m)) (xr m)).
  assert (EA : ea sym lb pofs (im m) = p).
  { unfold ea. rewrite A1. apply Z.mod_small. destruct lb; lia. }
  assert (C1 : rg (im m1) CX = dst).
  { unfold m1. unfold putr. cbn [im setr rg]. change (reg_eqb CX CX) with true. cbv iota. cbn [nbits nbytes]. rewrite EA, LD. apply Z.mod_small. lia. }
  assert (O1 : only_reg CX (im m) (im m1)) by (unfold m1; cbn [im]; apply putr_only).
  destruct (K m1) as (m2 & R2 & Q1 & Q2).
  - apply (addr_only sym (im m) (im m1) (BReg AX) 0 src (asize t) CX AX0 ltac:(discriminate) O1).
  - split; [rewrite C1; lia|lia].
  - exists (mkx (putr S8 AX (getr S8 CX (im m2)) (im m2)) (xr m2)).
    assert (R1 : xexec sym (G (Mov None (M lb pofs) (R S8 CX))) m = Some m1) by (cbn [xexec]; rewrite mov_load; reflexivity).
    rewrite (xrun_cons _ _ _ _ _ R1), (xrun_app _ _ _ _ _ R2). split; [reflexivity|].
    assert (C2 : rg (im m2) CX = dst) by (rewrite Q2 by discriminate; exact C1).
    split; [|split].
    + unfold putr. cbn [im setr rg]. change (reg_eqb AX AX) with true. cbv iota. unfold getr. rewrite C2. cbn [nbits]. rewrite Z.mod_mod by lia. apply Z.mod_small. lia.
    + exact Q1.
    + intros r N1 N2 N3. cbn [im]. rewrite (putr_only S8 AX) by assumption. rewrite Q2 by assumption. apply O1. assumption.
Qed.
End Run.

(** ** Registers of the ABI *)
Lemma ret_regs_ok : forall n a ms, let t := ARec n a ms in abi_type t -> n <= 16 ->
  exists c, copy_struct_reg t = Ok c /\ filter not_cx (flat_map dest c) = take_regs (sysv_classes t) [AX; DX] [0%nat; 1%nat].
Proof.
  intros n a ms t (At & Ab) Hn. pose proof At as (N & Sz & _). cbn [asize t] in Sz.
  pose proof (reg_code n a ms N ltac:(lia)) as E1. cbv zeta in E1. fold t in E1.
  eexists. split; [exact E1|]. rewrite (classes_ok t At Ab). unfold t. rewrite cls_rec by lia. fold t.
  destruct (8 <? n), (fpe t 0); try destruct (fpe t 1); unfold lpiece; cbn [Nat.eqb app flat_map];
    repeat match goal with |- context [if ?x =? 4 then _ else _] => destruct (x =? 4) end; reflexivity.
Qed.
