(** Proofs about block copies, block clears and stores of partial registers. *)
From Coq Require Import ZArith List Bool Lia.
From Verif Require Import Base BitLemmas X86 Sse MemSpec MemModel CgLemmas.
Import ListNotations.
Local Open Scope Z_scope.

Lemma int_ok : forall z, INT_MIN <= z <= INT_MAX -> int_of z = Ok z.
Proof.
  intros z H. unfold int_of. destruct (Z.leb_spec INT_MIN z), (Z.leb_spec z INT_MAX); cbn [andb]; try reflexivity; lia.
Qed.

Lemma storen_byte : forall c a v f k, 0 <= k < Z.of_nat c -> storen c a v f (a + k) = (v / 2 ^ (8 * k)) mod 256.
Proof.
  intros c a v f k H. unfold storen. destruct (Z.leb_spec a (a + k)); [|lia].
  destruct (Z.ltb_spec (a + k) (a + Z.of_nat c)); [|lia]. cbn [andb]. do 4 f_equal. lia.
Qed.
Lemma loadn_byte : forall c b f k, 0 <= k < Z.of_nat c -> (loadn c b f / 2 ^ (8 * k)) mod 256 = f (b + k) mod 256.
Proof.
  intros c b f k H. pose proof (loadn_part c (Z.to_nat k) 1 b f ltac:(lia)) as P.
  rewrite Z2Nat.id in P by lia. change (2 ^ (8 * Z.of_nat 1)) with 256 in P. rewrite <- P. cbn [loadn].
  rewrite Z.mul_0_r, Z.add_0_r. reflexivity.
Qed.
Lemma copy_byte : forall c a b f k, 0 <= k < Z.of_nat c ->
  byte_eq (storen c a (loadn c b f) f (a + k)) (f (b + k)).
Proof.
  intros c a b f k H. unfold byte_eq. rewrite storen_byte by exact H. rewrite loadn_byte by exact H.
  apply Z.mod_mod. lia.
Qed.

Lemma replaced_empty : forall f d val, replaced f f d 0 val.
Proof. intros f d val. split; [intros; lia | reflexivity]. Qed.
(** A first chunk, then the rest. *)
Lemma replaced_app : forall f f1 f2 d c n v1 v2 val,
  0 <= c -> 0 <= n ->
  replaced f f1 d c v1 -> replaced f1 f2 (d + c) n v2 ->
  (forall k, 0 <= k < c -> byte_eq (v1 k) (val k)) ->
  (forall k, 0 <= k < n -> byte_eq (v2 k) (val (c + k))) ->
  replaced f f2 d (c + n) val.
Proof.
  intros f f1 f2 d c n v1 v2 val HC HN [A1 B1] [A2 B2] V1 V2. unfold byte_eq in *. split.
  - intros k H. destruct (Z_lt_dec k c).
    + unfold byte_eq. rewrite B2 by lia. rewrite A1 by lia. apply V1. lia.
    + unfold byte_eq. replace (d + k) with (d + c + (k - c)) by lia. rewrite A2 by lia. rewrite V2 by lia.
      do 2 f_equal. lia.
  - intros x H. rewrite B2 by lia. apply B1. lia.
Qed.

Lemma p2_bounds : forall rem, 1 <= rem -> 1 <= p2_len (p2_of rem) <= rem /\ p2_len (p2_of rem) <= 8 /\
  p2_len (p2_of rem) = Z.of_nat (nbytes (p2_of rem)).
Proof.
  intros rem H. unfold p2_of. destruct (Z.leb_spec 8 rem); [cbn; lia|]. destruct (Z.leb_spec 4 rem); [cbn; lia|].
  destruct (Z.leb_spec 2 rem); cbn; lia.
Qed.

Lemma byte_of_mod : forall a k n, 0 <= k -> 8 * k + 8 <= n -> ((a mod 2 ^ n) / 2 ^ (8 * k)) mod 256 = (a / 2 ^ (8 * k)) mod 256.
Proof.
  intros a k n K N. change 256 with (2 ^ 8). apply mod_eq_bits; [lia|]. intros j J.
  rewrite !Z.div_pow2_bits by lia. rewrite testbit_mod by lia.
  destruct (Z.ltb_spec (j + 8 * k) n); [reflexivity | lia].
Qed.

Section Run.
Variable sym : nat -> Z.

Lemma xrun_cons : forall i r m m1, xexec sym i m = Some m1 -> xrun sym (i :: r) m = xrun sym r m1.
Proof. intros i r m m1 E. cbn [xrun]. rewrite E. reflexivity. Qed.
Lemma xrun_app : forall a b m m1, xrun sym a m = Some m1 -> xrun sym (a ++ b) m = xrun sym b m1.
Proof.
  induction a as [|i a IH]; intros b m m1 E; cbn [xrun app] in *; [congruence|].
  destruct (xexec sym i m); [|discriminate]. apply IH, E.
Qed.

Lemma ea_at : forall m b ofs a n i, addr_of sym m b ofs a n -> 0 <= i < n -> ea sym b (i + ofs) m = a + i.
Proof.
  unfold addr_of, ea. intros m b ofs a n i (E & L & U) H.
  rewrite Z.mod_small; [|destruct b; lia]. destruct b; lia.
Qed.
Lemma addr_only : forall m m' b ofs a n r, addr_of sym m b ofs a n -> b <> BReg r -> only_reg r m m' ->
  addr_of sym m' b ofs a n.
Proof.
  unfold addr_of, only_reg. intros m m' b ofs a n r H NB O. destruct b as [x|s]; [|exact H].
  rewrite O; [exact H|]. intro E. apply NB. subst. reflexivity.
Qed.

(** Loading and storing [p2] bytes through a register. *)
Lemma mov_load : forall m s r b o, 
  exec1 sym (Mov None (M b o) (R s r)) m = Some (putr s r (loadn (nbytes s) (ea sym b o m) (mm m)) m).
Proof. intros. destruct s; reflexivity. Qed.
Lemma mov_store : forall m s r b o,
  exec1 sym (Mov None (R s r) (M b o)) m = Some (setm m (storen (nbytes s) (ea sym b o m) (getr s r m) (mm m))).
Proof. intros. destruct s; reflexivity. Qed.
Lemma reg_eqb_refl : forall r, reg_eqb r r = true. Proof. destruct r; reflexivity. Qed.
Lemma reg_eqb_neq : forall a b, a <> b -> reg_eqb a b = false.
Proof. destruct a, b; intro H; try reflexivity; exfalso; apply H; reflexivity. Qed.
Lemma getr_putr : forall s r v m, getr s r (putr s r v m) = v mod 2 ^ nbits s.
Proof.
  intros s r v m. unfold getr, putr. destruct s; cbn [setr rg]; rewrite reg_eqb_refl.
  - rewrite Z.add_comm, Z.mod_add by (cbn; lia). apply Z.mod_mod. cbn; lia.
  - rewrite Z.add_comm, Z.mod_add by (cbn; lia). apply Z.mod_mod. cbn; lia.
  - apply Z.mod_mod. cbn; lia.
  - apply Z.mod_mod. cbn; lia.
Qed.
Lemma putr_only : forall s r v m, only_reg r m (putr s r v m).
Proof. intros s r v m x N. destruct s; cbn [putr setr rg]; rewrite (reg_eqb_neq _ _ N); reflexivity. Qed.
Lemma putr_mem : forall s r v m, mm (putr s r v m) = mm m.
Proof. intros. destruct s; reflexivity. Qed.

Lemma only_trans : forall r a b c, only_reg r a b -> only_reg r b c -> only_reg r a c.
Proof. unfold only_reg. intros r a b c H1 H2 x N. rewrite H2, H1; auto. Qed.
Lemma only_refl : forall r a, only_reg r a a. Proof. intros r a x N. reflexivity. Qed.

Section Copy.
Variables (sb db : base) (sofs dofs sz src dst : Z).
Hypothesis SB : sb <> BReg DX.
Hypothesis DB : db <> BReg DX.
Hypothesis SZ : 0 <= sz <= INT_MAX.
Hypothesis OV : dst <= src \/ src + sz <= dst.

(** One chunk of [c] bytes leaves the machine in such a state. *)
Lemma chunk_step : forall (m : xmach) i c, addr_of sym (im m) sb sofs src sz -> addr_of sym (im m) db dofs dst sz ->
  0 <= i -> 1 <= c -> i + c <= sz ->
  forall code m1, xrun sym code m = Some m1 ->
  replaced (mm (im m)) (mm (im m1)) (dst + i) c (fun k => mm (im m) (src + i + k)) -> only_reg DX (im m) (im m1) ->
  forall rest m', xrun sym rest m1 = Some m' ->
  replaced (mm (im m1)) (mm (im m')) (dst + (i + c)) (sz - (i + c)) (fun k => mm (im m1) (src + (i + c) + k)) ->
  only_reg DX (im m1) (im m') ->
  xrun sym (code ++ rest) m = Some m' /\
  replaced (mm (im m)) (mm (im m')) (dst + i) (sz - i) (fun k => mm (im m) (src + i + k)) /\
  only_reg DX (im m) (im m').
Proof.
  intros m i c AS AD I0 C0 IC code m1 R1 P1 O1 rest m' R2 P2 O2.
  split; [rewrite (xrun_app _ _ _ _ R1); exact R2|]. split; [|eapply only_trans; eassumption].
  replace (sz - i) with (c + (sz - (i + c))) by lia.
  replace (dst + (i + c)) with (dst + i + c) in P2 by lia.
  eapply replaced_app; [lia | lia | exact P1 | exact P2 | intros; reflexivity |].
  intros k K. unfold byte_eq. destruct P1 as [_ B1]. rewrite B1 by lia. do 2 f_equal. lia.
Qed.

Lemma copy_loop : forall fuel i, 0 <= i <= sz -> (Z.to_nat (sz - i) < fuel)%nat ->
  exists code, mem_copy_loop fuel sb sofs db dofs sz i = Ok code /\
  forall m, addr_of sym (im m) sb sofs src sz -> addr_of sym (im m) db dofs dst sz ->
  exists m', xrun sym code m = Some m' /\
    replaced (mm (im m)) (mm (im m')) (dst + i) (sz - i) (fun k => mm (im m) (src + i + k)) /\
    only_reg DX (im m) (im m').
Proof.
  induction fuel as [|f IH]; intros i I0 F; [lia|]. cbn [mem_copy_loop].
  assert (IM : INT_MIN < 0 /\ INT_MAX = 2147483647) by (split; reflexivity).
  destruct (Z.ltb_spec i sz) as [L|L].
  2:{ exists []. split; [reflexivity|]. intros m _ _. exists m. split; [reflexivity|].
      replace (sz - i) with 0 by lia. split; [apply replaced_empty | apply only_refl]. }
  rewrite int_ok by lia. cbn [bind].
  destruct (Z.leb_spec 16 (sz - i)) as [L16|L16].
  - rewrite int_ok by lia. cbn [bind].
    destruct (IH (i + 16) ltac:(lia) ltac:(lia)) as (code & E & K). rewrite E. cbn [bind].
    eexists. split; [reflexivity|]. intros m AS AD.
    set (m0 := ldx sym 16 sb (i + sofs) 0 m). set (m1 := stx sym 16 0 db (i + dofs) m0).
    assert (R1 : xrun sym [MovupsLd sb (i + sofs) 0; MovupsSt 0 db (i + dofs)] m = Some m1) by reflexivity.
    assert (O1 : only_reg DX (im m) (im m1)) by (intros x N; reflexivity).
    assert (P1 : replaced (mm (im m)) (mm (im m1)) (dst + i) 16 (fun k => mm (im m) (src + i + k))).
    { unfold m1, stx, m0, ldx. cbn [im setmem setm setx mm xr Nat.eqb].
      rewrite (ea_at _ _ _ _ _ i AS) by lia. rewrite (ea_at _ _ _ _ _ i AD) by lia. split.
      - intros k H. apply copy_byte. cbn; lia.
      - intros x H. apply storen_other. cbn; lia. }
    destruct (K m1) as (m' & R2 & P2 & O2).
    { exact (addr_only _ _ _ _ _ _ _ AS SB O1). } { exact (addr_only _ _ _ _ _ _ _ AD DB O1). }
    exists m'. exact (chunk_step m i 16 AS AD ltac:(lia) ltac:(lia) ltac:(lia) _ m1 R1 P1 O1 code m' R2 P2 O2).
  - destruct (p2_bounds (sz - i) ltac:(lia)) as (B1 & B2 & B3). set (p2 := p2_of (sz - i)) in *.
    rewrite int_ok by lia. cbn [bind].
    destruct (IH (i + p2_len p2) ltac:(lia) ltac:(lia)) as (code & E & K). rewrite E. cbn [bind].
    eexists. split; [reflexivity|]. intros m AS AD.
    set (v := loadn (nbytes p2) (src + i) (mm (im m))).
    set (m0 := mkx (putr p2 DX v (im m)) (xr m)).
    set (m1 := mkx (setm (im m0) (storen (nbytes p2) (dst + i) v (mm (im m)))) (xr m)).
    assert (O0 : only_reg DX (im m) (im m0)) by apply putr_only.
    assert (AD0 : addr_of sym (im m0) db dofs dst sz) by (eapply addr_only; eassumption).
    assert (R1 : xrun sym [G (Mov None (M sb (i + sofs)) (R p2 DX)); G (Mov None (R p2 DX) (M db (i + dofs)))] m = Some m1).
    { rewrite (xrun_cons _ _ _ m0).
      2:{ cbn [xexec]. rewrite mov_load. rewrite (ea_at _ _ _ _ _ i AS) by lia. reflexivity. }
      rewrite (xrun_cons _ _ _ m1); [reflexivity|].
      cbn [xexec]. rewrite mov_store. rewrite (ea_at _ _ _ _ _ i AD0) by lia.
      unfold m1, m0. cbn [im xr]. rewrite getr_putr, putr_mem.
      rewrite Z.mod_small; [reflexivity|]. rewrite nbits_nbytes. apply loadn_range. }
    assert (O1 : only_reg DX (im m) (im m1)) by (intros x N; apply O0; exact N).
    assert (P1 : replaced (mm (im m)) (mm (im m1)) (dst + i) (p2_len p2) (fun k => mm (im m) (src + i + k))).
    { unfold m1. cbn [im setm mm]. rewrite B3. split.
      - intros k H. apply copy_byte. lia.
      - intros x H. apply storen_other. lia. }
    destruct (K m1) as (m' & R2 & P2 & O2).
    { exact (addr_only _ _ _ _ _ _ _ AS SB O1). } { exact (addr_only _ _ _ _ _ _ _ AD DB O1). }
    exists m'. exact (chunk_step m i (p2_len p2) AS AD ltac:(lia) ltac:(lia) ltac:(lia) _ m1 R1 P1 O1 code m' R2 P2 O2).
Qed.
End Copy.

Lemma copy_ok : forall sb sofs db dofs sz src dst,
  sb <> BReg DX -> db <> BReg DX -> 0 <= sz <= INT_MAX -> dst <= src \/ src + sz <= dst ->
  exists code, gen_mem_copy2 sb sofs db dofs sz = Ok code /\
  forall m, addr_of sym (im m) sb sofs src sz -> addr_of sym (im m) db dofs dst sz ->
  exists m', xrun sym code m = Some m' /\
    replaced (mm (im m)) (mm (im m')) dst sz (fun k => mm (im m) (src + k)) /\
    only_reg DX (im m) (im m').
Proof.
  intros sb sofs db dofs sz src dst SB DB SZ OV. unfold gen_mem_copy2.
  destruct (copy_loop sb db sofs dofs sz src dst SB DB SZ OV (S (Z.to_nat sz)) 0) as (code & E & K); [lia | lia |].
  exists code. split; [exact E|]. intros m AS AD. destruct (K m AS AD) as (m' & A & B & C).
  exists m'. rewrite !Z.add_0_r, Z.sub_0_r in B. auto.
Qed.

(** A copy onto itself changes no byte. *)
Lemma zero_bytes : forall n d f, replaced f (storen n d 0 f) d (Z.of_nat n) (fun _ => 0).
Proof.
  intros n d f. split.
  - intros k H. unfold byte_eq. rewrite storen_byte by lia. rewrite Z.div_0_l by (apply Z.pow_nonzero; lia).
    reflexivity.
  - intros x H. apply storen_other. lia.
Qed.

Section Zero.
Variables (db : base) (dofs sz dst : Z).
Hypothesis DB : db <> BReg AX.
Hypothesis SZ : 0 <= sz.
Hypothesis SM : sz + 16 <= INT_MAX.
Hypothesis DO : INT_MIN <= dofs /\ dofs + sz <= INT_MAX.

Lemma zero_long : 16 <= sz -> forall fuel i, 0 <= i <= sz -> (Z.to_nat (sz - i) < fuel)%nat ->
  exists code, mem_zero_long fuel dofs db sz i = Ok code /\
  forall m, addr_of sym (im m) db dofs dst sz -> xr m 0%nat = 0 ->
  replaced (fun x => mm (im m) x) (mm (im m)) dst 0 (fun _ => 0) ->
  exists m', xrun sym code m = Some m' /\
    (forall k, i <= k < sz -> byte_eq (mm (im m') (dst + k)) 0) /\
    (forall k, 0 <= k < i -> mm (im m') (dst + k) = mm (im m) (dst + k) \/ byte_eq (mm (im m') (dst + k)) 0) /\
    (forall x, x < dst \/ dst + sz <= x -> mm (im m') x = mm (im m) x) /\
    rg (im m') = rg (im m).
Proof.
  intros L16. induction fuel as [|f IH]; intros i I0 F; [lia|]. cbn [mem_zero_long].
  assert (IM : INT_MIN = -2147483648 /\ INT_MAX = 2147483647) by (split; reflexivity).
  destruct (Z.ltb_spec i sz) as [L|L].
  2:{ exists []. split; [reflexivity|]. intros m _ _ _. exists m. split; [reflexivity|].
      split; [intros; lia|]. split; [intros; left; reflexivity|]. split; reflexivity. }
  rewrite int_ok by lia. cbn [bind].
  assert (E1 : exists i1, (if sz <? i + 16 then int_of (sz - 16) else Ok i) = Ok i1 /\ 0 <= i1 <= i /\ i < i1 + 16 <= sz).
  { destruct (Z.ltb_spec sz (i + 16)); [exists (sz - 16); rewrite int_ok by lia | exists i]; repeat split; lia. }
  destruct E1 as (i1 & -> & B1 & B2). cbn [bind]. rewrite !int_ok by lia. cbn [bind].
  destruct (IH (i1 + 16) ltac:(lia) ltac:(lia)) as (code & E & K). rewrite E. cbn [bind].
  eexists. split; [reflexivity|]. intros m AD X0 _.
  set (m1 := stx sym 16 0 db (i1 + dofs) m).
  assert (M1 : mm (im m1) = storen 16 (dst + i1) 0 (mm (im m))).
  { unfold m1, stx. cbn [im setmem setm mm]. rewrite (ea_at _ _ _ _ _ i1 AD) by lia. rewrite X0. reflexivity. }
  destruct (K m1) as (m' & R2 & A2 & A3 & A4 & A5).
  { exact AD. } { exact X0. } { apply replaced_empty. }
  pose proof (zero_bytes 16 (dst + i1) (mm (im m))) as [Z1 Z2]. rewrite <- M1 in Z1, Z2.
  change (Z.of_nat 16) with 16 in *.
  exists m'. split; [rewrite (xrun_cons _ _ _ m1) by reflexivity; exact R2|].
  split; [|split; [|split]].
  - intros k H. destruct (Z_lt_dec k (i1 + 16)) as [KL|KL]; [|apply A2; lia].
    destruct (A3 k ltac:(lia)) as [A|A]; [|exact A]. rewrite A.
    replace (dst + k) with (dst + i1 + (k - i1)) by lia. apply Z1. lia.
  - intros k H. destruct (A3 k ltac:(lia)) as [A|A]; [|right; exact A].
    destruct (Z_lt_dec k i1) as [KL|KL].
    + left. rewrite A. apply Z2. lia.
    + right. rewrite A. replace (dst + k) with (dst + i1 + (k - i1)) by lia. apply Z1. lia.
  - intros x H. rewrite A4 by exact H. apply Z2. lia.
  - exact A5.
Qed.

Lemma zero_short : sz < 16 -> forall fuel i, 0 <= i <= sz -> (Z.to_nat (sz - i) < fuel)%nat ->
  exists code, mem_zero_short fuel dofs db sz i = Ok code /\
  forall m, addr_of sym (im m) db dofs dst sz -> rg (im m) AX = 0 ->
  exists m', xrun sym code m = Some m' /\
    replaced (mm (im m)) (mm (im m')) (dst + i) (sz - i) (fun _ => 0) /\
    rg (im m') = rg (im m).
Proof.
  intros L16. induction fuel as [|f IH]; intros i I0 F; [lia|]. cbn [mem_zero_short].
  assert (IM : INT_MIN = -2147483648 /\ INT_MAX = 2147483647) by (split; reflexivity).
  destruct (Z.ltb_spec i sz) as [L|L].
  2:{ exists []. split; [reflexivity|]. intros m _ _. exists m. split; [reflexivity|].
      replace (sz - i) with 0 by lia. split; [apply replaced_empty | reflexivity]. }
  destruct (p2_bounds (sz - i) ltac:(lia)) as (B1 & B2 & B3).
  rewrite !int_ok by lia. cbn [bind]. set (p2 := p2_of (sz - i)) in *. rewrite int_ok by lia. cbn [bind].
  destruct (IH (i + p2_len p2) ltac:(lia) ltac:(lia)) as (code & E & K). rewrite E. cbn [bind].
  eexists. split; [reflexivity|]. intros m AD X0.
  set (m1 := mkx (setm (im m) (storen (nbytes p2) (dst + i) 0 (mm (im m)))) (xr m)).
  destruct (K m1) as (m' & R2 & P2 & A5). { exact AD. } { exact X0. }
  exists m'. split; [rewrite (xrun_cons _ _ _ m1); [exact R2|]|].
  { cbn [xexec]. rewrite mov_store. rewrite (ea_at _ _ _ _ _ i AD) by lia. unfold getr. rewrite X0.
    rewrite Z.mod_0_l by (destruct p2; cbn; lia). reflexivity. }
  split; [|exact A5].
  replace (sz - i) with (p2_len p2 + (sz - (i + p2_len p2))) by lia.
  replace (dst + (i + p2_len p2)) with (dst + i + p2_len p2) in P2 by lia.
  pose proof (zero_bytes (nbytes p2) (dst + i) (mm (im m))) as P1. rewrite <- B3 in P1.
  eapply replaced_app; [lia | lia | exact P1 | exact P2 | intros; reflexivity | intros; reflexivity].
Qed.
End Zero.

Lemma zero_ok : forall dofs db sz dst,
  db <> BReg AX -> 0 <= sz -> sz + 16 <= INT_MAX -> INT_MIN <= dofs -> dofs + sz <= INT_MAX ->
  exists code, gen_mem_zero dofs db sz = Ok code /\
  forall m, addr_of sym (im m) db dofs dst sz ->
  exists m', xrun sym code m = Some m' /\
    replaced (mm (im m)) (mm (im m')) dst sz (fun _ => 0) /\ only_reg AX (im m) (im m').
Proof.
  intros dofs db sz dst DB SZ SM D1 D2. unfold gen_mem_zero. destruct (Z.leb_spec 16 sz) as [L|L].
  - destruct (zero_long db dofs sz dst SM (conj D1 D2) L (S (Z.to_nat sz)) 0) as (code & E & K); [lia | lia |].
    rewrite E. cbn [bind]. eexists. split; [reflexivity|]. intros m AD.
    destruct (K (setx m 0 0) AD eq_refl (replaced_empty _ _ _)) as (m' & R & A & _ & B & C).
    exists m'. split; [rewrite (xrun_cons _ _ _ (setx m 0 0)) by reflexivity; exact R|].
    split; [split; [intros k H; apply A; lia | exact B]|]. intros x N. rewrite C. reflexivity.
  - destruct (zero_short db dofs sz dst (conj D1 D2) L (S (Z.to_nat sz)) 0) as (code & E & K); [lia | lia |].
    rewrite E. cbn [bind]. eexists. split; [reflexivity|]. intros m AD.
    set (m1 := mkx (setf (putr S4 AX 0 (im m)) None) (xr m)).
    assert (O1 : only_reg AX (im m) (im m1)) by (intros x N; apply (putr_only S4 AX 0 (im m)); exact N).
    destruct (K m1) as (m' & R & A & C).
    { eapply addr_only; eassumption. } { reflexivity. }
    exists m'. split; [rewrite (xrun_cons _ _ _ m1); [exact R|]|].
    { cbn [xexec exec1 is_mem andb osize osizes app flat_map forallb size_eqb rd wr noflags].
      rewrite Z.lxor_nilpotent. reflexivity. }
    rewrite Z.add_0_r, Z.sub_0_r in A. split; [exact A|]. intros x N. rewrite C. apply O1, N.
Qed.

Section Store.
Variables (r : reg) (db : base) (dofs sz dst : Z).
Hypothesis DB : db <> BReg r.
Hypothesis SZ : 1 <= sz <= 8.
Hypothesis DO : INT_MIN <= dofs /\ dofs + sz <= INT_MAX.

Lemma store_loop : forall fuel i, 0 <= i < sz -> (Z.to_nat (sz - i) < fuel)%nat ->
  exists code, store_gp_loop fuel r sz dofs db i = Ok code /\
  forall m, addr_of sym (im m) db dofs dst sz ->
  exists m', xrun sym code m = Some m' /\
    replaced (mm (im m)) (mm (im m')) (dst + i) (sz - i) (fun k => (rg (im m) r mod 2 ^ 64) / 2 ^ (8 * k)) /\
    only_reg r (im m) (im m') /\ xr m' = xr m.
Proof.
  induction fuel as [|f IH]; intros i I0 F; [lia|]. cbn [store_gp_loop].
  assert (IM : INT_MIN = -2147483648 /\ INT_MAX = 2147483647) by (split; reflexivity).
  destruct (p2_bounds (sz - i) ltac:(lia)) as (B1 & B2 & B3).
  rewrite !int_ok by lia. cbn [bind]. set (p2 := p2_of (sz - i)) in *. rewrite int_ok by lia. cbn [bind].
  assert (ST : forall m, addr_of sym (im m) db dofs dst sz ->
    let m1 := mkx (setm (im m) (storen (nbytes p2) (dst + i) (getr p2 r (im m)) (mm (im m)))) (xr m) in
    xexec sym (G (Mov None (R p2 r) (M db (i + dofs)))) m = Some m1 /\
    replaced (mm (im m)) (mm (im m1)) (dst + i) (p2_len p2) (fun k => (rg (im m) r mod 2 ^ 64) / 2 ^ (8 * k))).
  { intros m AD m1. split.
    - cbn [xexec]. rewrite mov_store. rewrite (ea_at _ _ _ _ _ i AD) by lia. reflexivity.
    - unfold m1. cbn [im setm mm]. split.
      + intros k H. unfold byte_eq. rewrite storen_byte by lia. rewrite Z.mod_mod by lia. unfold getr.
        rewrite nbits_nbytes, <- B3.
        rewrite !byte_of_mod by lia. reflexivity.
      + intros x H. apply storen_other. lia. }
  destruct (Z.leb_spec sz (i + p2_len p2)) as [L|L].
  - eexists. split; [reflexivity|]. intros m AD. destruct (ST m AD) as [R1 P1]. eexists.
    split; [rewrite (xrun_cons _ _ _ _ R1); reflexivity|].
    replace (sz - i) with (p2_len p2) by lia. split; [exact P1|]. split; [intros x N; reflexivity | reflexivity].
  - destruct (IH (i + p2_len p2) ltac:(lia) ltac:(lia)) as (code & E & K). rewrite E. cbn [bind].
    eexists. split; [reflexivity|]. intros m AD. destruct (ST m AD) as [R1 P1].
    set (m1 := mkx _ _) in *.
    set (m2 := mkx (setf (putr S8 r ((rg (im m) r mod 2 ^ 64) / 2 ^ (p2_len p2 * 8)) (im m1)) None) (xr m)).
    assert (O2 : only_reg r (im m) (im m2)).
    { intros x N. unfold m2. cbn [im setf rg]. rewrite (putr_only S8 r _ (im m1) x N). reflexivity. }
    assert (R2 : xexec sym (G (Sh XShr (CImm (p2_len p2 * 8)) (R S8 r))) m1 = Some m2).
    { cbn [xexec exec1]. destruct (Z.leb_spec 0 (p2_len p2 * 8)); [|lia].
      destruct (Z.ltb_spec (p2_len p2 * 8) 256); [|lia]. cbn [andb].
      unfold getr. cbn [size_eqb nbits]. rewrite (Z.mod_small (p2_len p2 * 8) 64) by lia. reflexivity. }
    destruct (K m2) as (m' & R3 & P3 & O3 & X3). { eapply addr_only; eassumption. }
    exists m'. split; [rewrite (xrun_cons _ _ _ _ R1), (xrun_cons _ _ _ _ R2); exact R3|].
    split; [|split; [eapply only_trans; eassumption | rewrite X3; reflexivity]].
    replace (sz - i) with (p2_len p2 + (sz - (i + p2_len p2))) by lia.
    replace (dst + (i + p2_len p2)) with (dst + i + p2_len p2) in P3 by lia.
    eapply replaced_app; [lia | lia | exact P1 | exact P3 | intros; reflexivity |].
    intros k H. unfold byte_eq, m2. cbn [im setf putr setr rg]. rewrite reg_eqb_refl.
    rewrite (Z.mod_mod _ (2 ^ nbits S8)) by (cbn; lia).
    pose proof (Z.mod_pos_bound (rg (im m) r) (2 ^ 64) ltac:(lia)) as RB.
    set (w := rg (im m) r mod 2 ^ 64) in *. clearbody w.
    rewrite (Z.mod_small (w / 2 ^ (p2_len p2 * 8)) (2 ^ nbits S8)).
    2:{ cbn [nbits]. split; [apply Z.div_pos; [lia|]; apply Z.pow_pos_nonneg; lia|].
        apply Z.le_lt_trans with w; [|lia]. apply Z.div_le_upper_bound; [apply Z.pow_pos_nonneg; lia|].
        rewrite <- (Z.mul_1_l w) at 1. apply Z.mul_le_mono_nonneg_r; [lia|].
        change 1 with (2 ^ 0). apply Z.pow_le_mono_r; lia. }
    rewrite Z.div_div by (try apply Z.pow_nonzero; try apply Z.pow_pos_nonneg; lia).
    rewrite <- Z.pow_add_r by lia. do 3 f_equal. lia.
Qed.
End Store.

Lemma store_ok : forall r db dofs sz dst,
  db <> BReg r -> 1 <= sz <= 8 -> INT_MIN <= dofs -> dofs + sz <= INT_MAX ->
  exists code, store_gp2 r sz dofs db = Ok code /\
  forall m, addr_of sym (im m) db dofs dst sz ->
  exists m', xrun sym code m = Some m' /\
    replaced (mm (im m)) (mm (im m')) dst sz (fun k => (rg (im m) r mod 2 ^ 64) / 2 ^ (8 * k)) /\
    only_reg r (im m) (im m') /\ xr m' = xr m.
Proof.
  intros r db dofs sz dst DB SZ D1 D2. unfold store_gp2.
  destruct (store_loop r db dofs sz dst DB SZ (conj D1 D2) (S (Z.to_nat sz)) 0) as (code & E & K); [lia | lia |].
  exists code. split; [exact E|]. intros m AD. destruct (K m AD) as (m' & A & B & C & D).
  exists m'. rewrite Z.add_0_r, Z.sub_0_r in B. auto.
Qed.
End Run.

Lemma zero_overflow : forall db fuel i,
  INT_MAX - 16 < i < INT_MAX -> mem_zero_long (S fuel) 0 db INT_MAX i = UB.
Proof.
  intros db fuel i H. cbn [mem_zero_long]. destruct (Z.ltb_spec i INT_MAX); [|lia].
  unfold int_of at 1. destruct (Z.leb_spec (i + 16) INT_MAX); [lia|]. rewrite andb_false_r. reflexivity.
Qed.

Lemma zero_overflow_loop : forall db k fuel, (k < fuel)%nat -> 16 * Z.of_nat k <= 2147483632 ->
  mem_zero_long fuel 0 db INT_MAX (2147483632 - 16 * Z.of_nat k) = UB.
Proof.
  induction k as [|k IH]; intros fuel F B; (destruct fuel as [|fuel]; [lia|]).
  - apply zero_overflow. vm_compute. auto.
  - cbn [mem_zero_long]. assert (IM : INT_MIN = -2147483648 /\ INT_MAX = 2147483647) by (split; reflexivity).
    destruct (Z.ltb_spec (2147483632 - 16 * Z.of_nat (S k)) INT_MAX); [|lia].
    rewrite int_ok by lia. cbn [bind].
    destruct (Z.ltb_spec INT_MAX (2147483632 - 16 * Z.of_nat (S k) + 16)); [lia|]. cbn [bind].
    rewrite !int_ok by lia. cbn [bind].
    replace (2147483632 - 16 * Z.of_nat (S k) + 16) with (2147483632 - 16 * Z.of_nat k) by lia.
    rewrite IH by lia. reflexivity.
Qed.
Lemma zero_max : forall db, gen_mem_zero 0 db INT_MAX = UB.
Proof.
  intro db. unfold gen_mem_zero. change (16 <=? INT_MAX) with true. cbv iota.
  replace 0 with (2147483632 - 16 * Z.of_nat (Z.to_nat 134217727)) at 2 by (rewrite Z2Nat.id by lia; reflexivity).
  rewrite zero_overflow_loop; [reflexivity | |rewrite Z2Nat.id by lia; lia].
  apply Nat.lt_succ_r. apply Z2Nat.inj_le; [lia | vm_compute; discriminate | vm_compute; discriminate].
Qed.
