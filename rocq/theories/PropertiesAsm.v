(** C62: operands of extended asm statements. *)
From Coq Require Import Ascii String ZArith List Bool Lia.
From Verif Require Import AsmSpec AsmModel AsmAlloc AsmMain AsmCodeSpec AsmCodeModel AsmRun.
Import ListNotations.
Local Open Scope string_scope.
Local Open Scope nat_scope.
Local Open Scope list_scope.

(** An operand is where its constraint allows, except for constants out of the range of a letter and for operands with
    the number of one that was put into memory. *)
Theorem C62_permits : forall outs ins cl p, (forall o, In o (outs ++ ins) -> input o = false -> nums o = []) -> prepare outs ins cl = Ok p ->
  length (places p) = length (outs ++ ins) /\
  forall i o l, nth_error (outs ++ ins) i = Some o -> nth_error (places p) i = Some l ->
  permits (places p) o l \/
  (exists v, l = Imm v /\ a_int (snd o) = true /\ a_const (snd o) = Some v /\ ranged o) \/
  (exists m r, l = Reg r /\ In m (nums o) /\ nth_error (places p) m = Some (Mem r)).
Proof. exact places_permit. Qed.
Print Assumptions C62_permits.
(** Operands do not get into each other's way unless the programmer chose both registers. *)
Theorem C62_apart : forall outs ins cl p i j o q, (forall o, In o (outs ++ ins) -> input o = false -> nums o = []) -> prepare outs ins cl = Ok p -> i <> j ->
  nth_error (outs ++ ins) i = Some o -> nth_error (outs ++ ins) j = Some q -> ~ (pinned (outs ++ ins) o /\ pinned (outs ++ ins) q) ->
  apart (outs ++ ins) (places p) i j.
Proof. exact places_apart. Qed.
Print Assumptions C62_apart.
(** Operands are not in clobbered registers. *)
Theorem C62_clobbers : forall outs ins cl p i o l c r, (forall o, In o (outs ++ ins) -> input o = false -> nums o = []) -> prepare outs ins cl = Ok p ->
  nth_error (outs ++ ins) i = Some o -> nth_error (places p) i = Some l -> ~ pinned (outs ++ ins) o -> In c cl -> named (bare c) r -> r <> SP -> in_reg l <> r.
Proof. exact places_clobber. Qed.
Print Assumptions C62_clobbers.

(** [asm("..." : "=&r"(x), "=a"(y), "+m"( *p) : "0"(1), "rN"(n), "x"(d), "Q"(c), "i"(7), "0"(z) : "rcx", "%xmm0", "cc", "memory")] *)
Definition v_int : arg := Arg true None true None.
Definition v_deref : arg := Arg true None false None.
Definition v_dbl : arg := Arg false None true None.
Definition num (v : Z) : arg := Arg true (Some v) false None.
Definition ex_outs : list operand := [("=&r", v_int); ("=a", v_int); ("+m", v_deref); ("=@ccz", v_int)].
Definition ex_ins : list operand := [("0", v_int); ("rN", v_deref); ("x", v_dbl); ("Q", v_deref); ("i", num 7); ("m", v_int); ("1", v_int)].
Definition ex_clob : list string := ["rcx"; "%xmm0"; "cc"; "memory"; "rbp"].
Definition ex_places : list loc :=
  [Reg SI; Reg AX; Mem DI; Flag "z"; Reg SI; Reg 6; Reg 18; Reg DX; Imm 7; Mem 0; Reg AX].
Example C62_ex : (forall o, In o (ex_outs ++ ex_ins) -> input o = false -> nums o = []) /\
  exists p, prepare ex_outs ex_ins ex_clob = Ok p /\ places p = ex_places /\ p_alt1 p = 7 /\ p_alt2 p = 0 /\ p_tmp p = DX.
Proof.
  split.
  - intros o I. unfold ex_outs, ex_ins in I. cbn [app In] in I. repeat (destruct I as [<-|I]; [vm_compute; intros X; try reflexivity; discriminate X|]). destruct I.
  - eexists. split; [vm_compute; reflexivity|]. vm_compute. auto.
Qed.
Example C62_ex_register : exists p, prepare [("+r", Arg true None true (Some "%r12"))] [("r", v_int); ("r", v_int)] ["rbx"] = Ok p /\
  places p = [Reg R12; Reg AX; Reg CX] /\ p_alt2 p = DX /\ p_tmp p = AX /\ p_mask p = [R12; BX].
Proof. eexists. split; [vm_compute; reflexivity|]. vm_compute. auto. Qed.

(** A constant out of range is taken for an immediate operand though a register is allowed. *)
Theorem C62_range_refuted : exists o p, prepare [] [o] [] = Ok p /\ permits [Reg AX] o (Reg AX) /\ places p = [Imm 100] /\ ~ permits (places p) o (Imm 100).
Proof.
  exists ("Ir", num 100). eexists. split; [vm_compute; reflexivity|]. split; [|split; [vm_compute; reflexivity|]].
  - split; [left; exists "r"%char; vm_compute; auto|]. intros s X. discriminate X.
  - intros [_ [_ [a [I X]]]]. cbn in I. destruct I as [<-|[<-|[]]]; vm_compute in X; discriminate X.
Qed.
Print Assumptions C62_range_refuted.
(** An operand that has to be where another one is, in memory, is put into the register with the address. *)
Theorem C62_match_refuted : exists o q p, prepare [o] [q] [] = Ok p /\ places p = [Mem AX; Reg AX] /\ ~ permits (places p) q (Reg AX).
Proof.
  exists ("=m", v_deref), ("0", v_int). eexists. split; [vm_compute; reflexivity|]. split; [vm_compute; reflexivity|].
  intros [[[a [I X]]|[n [I X]]] _]; cbn in I; destruct I as [<-|[]]; vm_compute in X; discriminate X.
Qed.
Print Assumptions C62_match_refuted.
(** The same register twice, or a clobbered one, is accepted if the programmer chose it. *)
Theorem C62_fixed_refuted : exists o q p, prepare [] [o; q] [] = Ok p /\ ~ apart [o; q] (places p) 0 1 /\
  exists p, prepare [] [o] ["rax"] = Ok p /\ places p = [Reg AX].
Proof.
  exists ("a", v_int), ("a", v_int). eexists. split; [vm_compute; reflexivity|]. split; [|eexists; split; vm_compute; reflexivity].
  intros H. destruct (H (Reg AX) (Reg AX) eq_refl eq_refl ltac:(discriminate) eq_refl) as [S|S];
    destruct S as [o [q [l [A [B [C [_ [D|[D _]]]]]]]]]; vm_compute in A; vm_compute in B; injection A as <-; injection B as <-; vm_compute in D; try discriminate D; destruct D.
Qed.
Print Assumptions C62_fixed_refuted.
(** Names of registers of AVX-512: the compiler writes outside an array. *)
Theorem C62_names_refuted : prepare [] [("r", v_int)] ["xmm24"] = UB /\ prepare [] [("r", v_int)] ["zmm31"] = UB.
Proof. split; vm_compute; reflexivity. Qed.
Print Assumptions C62_names_refuted.

(** The code before and after the instructions. Before them, operands that are not only outputs hold their values, and
    only stack slots are changed. If the instructions change nothing but outputs, clobbered registers and memory of the
    program, then the outputs are written in turn, and registers of the calling function are as before. Not for operands that
    are in the same registers, in x87 registers or the stack pointer, for the number of an operand that is not a mere
    output in a register, and for conditions after a bit-field. *)
Theorem C62_runs : forall outs ins cl p ds xs F sv pro epi m0, let os := outs ++ ins in let n := length outs in let l := pairs n p ds xs in
  (forall o, In o outs -> input o = false /\ nums o = []) -> (forall o, In o ins -> input o = true) -> prepare outs ins cl = Ok p -> length ds = length os -> length xs = length os ->
  (forall i j, i <> j -> apart os (places p) i j) ->
  (forall o k, In o ins -> In k (nums o) -> exists q r, nth_error os k = Some q /\ starts "=" q = true /\ nth_error (places p) k = Some (Reg r)) ->
  (forall r, In (Reg r) (places p) -> r <> SP /\ (gp r = true \/ xmm r = true)) -> ~ In (Mem SP) (places p) ->
  (forall i j d r c, i < j -> nth_error (places p) i = Some (Reg r) -> nth_error ds i = Some d -> d_bits d <> None -> nth_error (places p) j <> Some (Flag c)) ->
  (forall d b w, In d ds -> d_bits d = Some (b, w) -> b + w <= 8 * d_size d) ->
  gen_asm n p ds F sv = Ok (pro, epi) -> layout (rg m0) F sv l -> (forall e x, In (e, x) l -> ready (rg m0) (mm m0) e x) -> (forall r, In r keepers -> (0 <= rg m0 r < two 64)%Z) ->
  exists m1, exec pro m0 = Some m1 /\
  (forall i o d lo x, nth_error os i = Some o -> nth_error ds i = Some d -> nth_error (places p) i = Some lo -> nth_error xs i = Some x -> entry (rg m1) (via (alt_ptr p)) o d lo x) /\
  (forall a, (forall r, In r keepers -> ~ inside a (rg m0 F + sv r) 8) -> mm m1 a = mm m0 a) /\
  forall m2 g, behaves (may_change n (places p) cl) (private (rg m0) F sv l) m1 m2 -> fl m2 = Some g ->
  exists m3, exec epi m2 = Some m3 /\ (forall a, mm m3 a = fold_left (written (rg m2) g) (firstn n (combine (combine ds (places p)) xs)) (mm m2) a) /\
    (forall q, In q saved -> rg m3 q = rg m0 q).
Proof. exact asm_runs. Qed.
Print Assumptions C62_runs.

(** [asm("..." : "=@ccz"(z), "=&r"( *q), "=a"(s->f) : "1"(v), "x"(d), "m"( *r), "r"( *t) : "rbp", "rbx", "r12")] *)
Definition rx_outs : list operand := [("=@ccz", v_int); ("=&r", v_deref); ("=a", v_deref)].
Definition rx_ins : list operand := [("1", v_int); ("x", v_dbl); ("m", v_deref); ("r", v_deref)].
Definition rx_clob : list string := ["rbp"; "rbx"; "r12"].
Definition rx_places : list loc := [Flag "z"; Reg CX; Reg AX; Reg CX; Reg XMM0; Mem AX; Reg DX].
Definition rx_ds : list side :=
  [Side (Base BP (-24)) 4 None; Side (Base BP (-8)) 4 None; Side (Base BP (-16)) 4 (Some (4, 8));
   Side (Base BP (-28)) 4 None; Side (Base BP (-40)) 8 None; Side (Base BP (-48)) 4 None; Side (Base BP (-56)) 2 None].
Definition rx_xs : list obj := [Obj 9976 0; Obj 5000 0; Obj 6000 0; Obj 9972 77; Obj 9960 33; Obj 7000 0; Obj 8000 511].
Definition rx_sv (r : nat) : Z := (-200 - 8 * Z.of_nat r)%Z.
Definition rx_mem : memory :=
  fold_left (fun M e => let '(a, k, v) := e in wr M a k v) [(9992, 8%nat, 5000); (9984, 8%nat, 6000); (9972, 4%nat, 77); (9960, 8%nat, 33); (9952, 8%nat, 7000); (9944, 2%nat, 511); (6000, 4%nat, 65535)]%Z (fun _ => 0%Z).
Definition rx_m0 : machine := Mc (fun r => if Nat.eqb r BP then 10000 else Z.of_nat r)%Z rx_mem None.
Example C62_ex_runs : exists p pro epi,
  (forall o, In o rx_outs -> input o = false /\ nums o = []) /\ (forall o, In o rx_ins -> input o = true) /\ prepare rx_outs rx_ins rx_clob = Ok p /\
  places p = rx_places /\ p_alt1 p <> 0 /\ p_alt2 p <> 0 /\
  (forall i j, i <> j -> apart (rx_outs ++ rx_ins) (places p) i j) /\
  (forall o k, In o rx_ins -> In k (nums o) -> exists q r, nth_error (rx_outs ++ rx_ins) k = Some q /\ starts "=" q = true /\ nth_error (places p) k = Some (Reg r)) /\
  (forall r, In (Reg r) (places p) -> r <> SP /\ (gp r = true \/ xmm r = true)) /\
  (forall i j d r c, i < j -> nth_error (places p) i = Some (Reg r) -> nth_error rx_ds i = Some d -> d_bits d <> None -> nth_error (places p) j <> Some (Flag c)) /\
  gen_asm 3 p rx_ds BP rx_sv = Ok (pro, epi) /\ layout (rg rx_m0) BP rx_sv (pairs 3 p rx_ds rx_xs) /\
  (forall e x, In (e, x) (pairs 3 p rx_ds rx_xs) -> ready (rg rx_m0) (mm rx_m0) e x) /\
  match exec pro rx_m0 with
  | Some m1 => rg m1 CX = 77%Z /\ rg m1 XMM0 = 33%Z /\ (rg m1 DX mod two 16 = 511)%Z /\
      match exec epi (Mc (set (set (set (set (rg m1) CX 12) AX 500) BP 1) R12 2)%Z (mm m1) (Some (fun c => String.eqb c "z"))) with
      | Some m3 => rd (mm m3) 9976 4 = 1%Z /\ rd (mm m3) 5000 4 = 12%Z /\ rd (mm m3) 6000 4 = (61440 + 244 * 16 + 15)%Z /\ map (rg m3) saved = map (rg rx_m0) saved
      | None => False
      end
  | None => False
  end.
Proof.
  eexists. eexists. eexists.
  split; [intros o I; cbn [rx_outs In] in I; repeat (destruct I as [<-|I]; [vm_compute; auto|]); destruct I|].
  split; [intros o I; cbn [rx_ins In] in I; repeat (destruct I as [<-|I]; [vm_compute; auto|]); destruct I|].
  split; [vm_compute; reflexivity|]. split; [vm_compute; reflexivity|]. split; [discriminate|]. split; [discriminate|].
  match goal with |- context [places ?p] => assert (PP : places p = rx_places) by (vm_compute; reflexivity); set (q := p) in * end. rewrite PP.
  split.
  { intros i j N l m Hl Hm Z E. do 7 (try destruct i as [|i]); do 7 (try destruct j as [|j]); try (destruct i; discriminate Hl); try (destruct j; discriminate Hm); try (destruct (N eq_refl));
      injection Hl as <-; injection Hm as <-; try discriminate E; try (destruct (Z eq_refl)).
    - left. do 3 eexists. repeat split; try reflexivity. right. vm_compute. auto.
    - left. do 3 eexists. repeat split; try reflexivity. left. reflexivity.
    - right. do 3 eexists. repeat split; try reflexivity. right. vm_compute. auto.
    - right. do 3 eexists. repeat split; try reflexivity. left. reflexivity. }
  split.
  { intros o k I K. assert (K1 : k = 1) by (cbn [rx_ins In] in I; repeat (destruct I as [<-|I]; [vm_compute in K; first [solve [destruct K as [K|K]; [symmetry; exact K|destruct K]]|destruct K]|]); destruct I). subst k. exists ("=&r", v_deref), CX. repeat split. }
  split.
  { intros r I. cbn [rx_places In] in I. destruct I as [I|[I|[I|[I|[I|[I|[I|[]]]]]]]]; try discriminate I; (injection I as I; subst r; split; [discriminate|vm_compute; auto]). }
  split.
  { intros i j d r c L HP HD B HJ. do 8 (try destruct j as [|j]); try discriminate HJ. lia. }
  split; [vm_compute; reflexivity|].
  split.
  { constructor.
    - left. reflexivity.
    - intros e x I. vm_compute in I. repeat (destruct I as [I|I]; [injection I as <- <-; cbn; auto|]). destruct I.
    - intros a b A B N. cbn [keepers In] in A, B. repeat (destruct A as [<-|A]; [repeat (destruct B as [<-|B]; [vm_compute; first [destruct (N eq_refl)|left; discriminate|right; discriminate]|]); destruct B|]). destruct A.
    - intros e x r I R. vm_compute in I. cbn [keepers In] in R.
      repeat (destruct I as [I|I]; [injection I as <- <-; repeat (destruct R as [<-|R]; [vm_compute; repeat split; first [left; discriminate|right; discriminate]|]); destruct R|]). destruct I.
    - intros e x e' x' m I J H. vm_compute in I, J.
      repeat (destruct J as [J|J]; [injection J as <- <-; vm_compute in H; try discriminate H; injection H as <-;
        repeat (destruct I as [I|I]; [injection I as <- <-; vm_compute; first [exact Logic.I|left; discriminate|right; discriminate]|]); destruct I|]). destruct J. }
  split.
  { intros e x I. vm_compute in I. repeat (destruct I as [I|I]; [injection I as <- <-; vm_compute; repeat split; intros Y; discriminate Y|]). destruct I. }
  vm_compute. auto 10.
Qed.

(** A bit-field that is read and written: the instructions find the whole unit, and the field is changed though they do nothing. *)
Definition bx_ds : list side := [Side (Base BP (-8)) 1 (Some (4, 4))].
Definition bx_m0 : machine := Mc (fun r => if Nat.eqb r BP then 10000 else 0)%Z (wr (wr (fun _ => 0) 9992 8 5000) 5000 1 165)%Z None.
Theorem C62_bits_refuted : exists p pro epi m1 m3, prepare [("+r", v_deref)] [] [] = Ok p /\ places p = [Reg AX] /\ gen_asm 1 p bx_ds BP rx_sv = Ok (pro, epi) /\
  (forall e x, In (e, x) (pairs 1 p bx_ds [Obj 5000 10]) -> ready (rg bx_m0) (mm bx_m0) e x) /\
  exec pro bx_m0 = Some m1 /\ (rg m1 AX mod two 8 = 165)%Z /\ exec epi m1 = Some m3 /\ (rd (mm bx_m0) 5000 1 / 16 = 10)%Z /\ (rd (mm m3) 5000 1 / 16 = 5)%Z.
Proof.
  do 5 eexists. split; [vm_compute; reflexivity|]. split; [vm_compute; reflexivity|]. split; [vm_compute; reflexivity|].
  split; [intros e x I; vm_compute in I; destruct I as [I|[]]; injection I as <- <-; vm_compute; split; [reflexivity|discriminate]|].
  split; [lazy; reflexivity|]. split; [vm_compute; reflexivity|]. split; [lazy; reflexivity|]. split; vm_compute; reflexivity.
Qed.
Print Assumptions C62_bits_refuted.
(** A condition after a bit-field: the conditions are changed before they are written. *)
Theorem C62_flags_refuted : exists p pro epi, prepare [("=r", v_deref); ("=@ccz", v_int)] [] [] = Ok p /\ places p = [Reg AX; Flag "z"] /\
  gen_asm 2 p [Side (Base BP (-8)) 4 (Some (4, 8)); Side (Base BP (-24)) 4 None] BP rx_sv = Ok (pro, epi) /\ forall m, exec epi m = None.
Proof. do 3 eexists. split; [vm_compute; reflexivity|]. split; [vm_compute; reflexivity|]. split; [vm_compute; reflexivity|]. intros m. reflexivity. Qed.
Print Assumptions C62_flags_refuted.
