(** C26, C27: passing arguments. *)
From Coq Require Import ZArith List Bool Lia.
From Verif Require Import Base X86 Sse MemSpec CallSpec CallModel CallClass CallPlan CallEnd.
Import ListNotations.
Local Open Scope Z_scope.

(** C26: what the caller loads into registers is what the callee stores into its parameters: after the code of the
    caller and of the callee, every parameter passed in registers has the bytes of its argument, and nothing
    else is written. The function may be called with more arguments than parameters. [gp] is 1 if
    the first register is the address of the result. *)
Theorem C26_registers : forall sym srcs dsts extra gp,
  map l_ty srcs = map l_ty dsts ++ extra -> (gp <= 1)%nat ->
  Forall argument (map l_ty srcs) -> Forall full (map l_ty dsts) -> Forall loc_ok srcs -> Forall loc_ok dsts ->
  stack_bytes (map l_ty srcs) <= INT_MAX ->
  exists stk1 st1 stk2 st2 c1 c2,
    calling_convention (map l_ty srcs) (Z.of_nat gp) 0 = Ok (stk1, st1) /\
    calling_convention (map l_ty dsts) (Z.of_nat gp) 0 = Ok (stk2, st2) /\
    stk2 = firstn (length dsts) stk1 /\
    gen_reg_args (combine (combine (map l_ty srcs) stk1) (map l_place srcs)) gp 0 = Ok c1 /\
    save_params (combine (combine (map l_ty dsts) stk2) (map l_place dsts)) gp 0 = Ok c2 /\
    forall m, Forall (located sym (im m)) srcs ->
    exists m1, xrun sym (concat c1) m = Some m1 /\ mm (im m1) = mm (im m) /\
      (forall r, ~ In r (skipn gp int_regs) -> rg (im m1) r = rg (im m) r) /\
      forall m2, (forall r, In r int_regs -> rg (im m2) r = rg (im m1) r) -> (forall x, (x < 8)%nat -> xr m2 x = xr m1 x) ->
        Forall (located sym (im m2)) dsts -> ForallOrdPairs disjoint dsts ->
      exists m3, xrun sym c2 m2 = Some m3 /\
        (forall k s d, nth_error srcs k = Some s -> nth_error dsts k = Some d -> nth_error stk2 k = Some None ->
           forall j, 0 <= j < asize (l_ty d) -> byte_eq (mm (im m3) (l_addr d + j)) (mm (im m) (l_addr s + j))) /\
        (forall x, (forall k d, nth_error dsts k = Some d -> nth_error stk2 k = Some None -> outside x d) ->
           mm (im m3) x = mm (im m2) x) /\
        (forall r, ~ In r int_regs -> rg (im m3) r = rg (im m2) r).
Proof. exact transfer_ok. Qed.
Print Assumptions C26_registers.

(** C26: the arguments on the stack lie one after the other, aligned, inside the area reserved for them. *)
Theorem C26_stack : forall ts gp, Forall argument ts -> (gp <= 1)%nat -> stack_bytes ts <= INT_MAX ->
  exists stk st, calling_convention ts (Z.of_nat gp) 0 = Ok (stk, st) /\ length stk = length ts /\
    (forall k t o, nth_error ts k = Some t -> nth_error stk k = Some (Some o) ->
       0 <= o /\ o + asize t <= cc_stack st /\ o mod Z.max 8 (aalign t) = 0 /\ cc_align st mod aalign t = 0) /\
    (forall j k t o o', (j < k)%nat -> nth_error ts j = Some t -> nth_error stk j = Some (Some o) ->
       nth_error stk k = Some (Some o') -> o + asize t <= o') /\
    cc_stack st mod 8 = 0 /\ cc_align st mod 16 = 0.
Proof. exact stack_ok. Qed.
Print Assumptions C26_stack.

(** C27: registers and stack offsets are those of the System V ABI. *)
Theorem C27_places : forall ts gp srcs, Forall abi_type ts -> (gp <= 1)%nat -> stack_bytes ts <= INT_MAX -> length srcs = length ts ->
  exists stk st codes, calling_convention ts (Z.of_nat gp) 0 = Ok (stk, st) /\
    gen_reg_args (combine (combine ts stk) srcs) gp 0 = Ok codes /\
    map place_of (combine stk codes) = sysv_places ts (skipn gp int_regs) sse_regs 0.
Proof. exact places_ok. Qed.
Print Assumptions C27_places.

Ltac cov1 := intros e He Hs; (let x := match type of Hs with _ < ?x => x end in let v := eval vm_compute in x in change x with v in Hs); assert (HE : e = 0 \/ e = 1) by lia; destruct HE as [->| ->]; try lia;
  first [ solve [eexists; split; [left; reflexivity|reflexivity]]
        | solve [eexists; split; [right; left; reflexivity|reflexivity]]
        | solve [eexists; split; [right; right; left; reflexivity|reflexivity]] ].

(** int; struct {float a[2]; int i;}; double *)
Definition ex_int := AGp false 4.
Definition ex_mix := ARec 12 4 [(0, AArr 2 AFloat); (8, AGp false 4)].
Definition ex_big := ARec 24 8 [(0, ADouble); (8, AGp true 8); (16, AGp true 1)].
Definition ex_types := [ex_int; ex_mix; ex_big; ALdouble; ADouble; AGp true 1].
Lemma ex_mix_nat : natural ex_mix.
Proof. cbn. repeat split; try lia. - exists 2; cbn; lia. - constructor; [constructor; [left; cbn; lia|constructor]|]. constructor; [constructor|constructor]. Qed.
Lemma ex_big_nat : natural ex_big.
Proof.
  cbn. repeat split; try lia. - exists 3; cbn; lia.
  - constructor; [constructor; [left; cbn; lia|constructor; [left; cbn; lia|constructor]]|].
    constructor; [constructor; [left; cbn; lia|constructor]|]. constructor; [constructor|constructor].
Qed.
Lemma ex_abi : Forall abi_type ex_types.
Proof.
  unfold ex_types. apply Forall_cons; [|apply Forall_cons; [|apply Forall_cons; [|apply Forall_cons; [|apply Forall_cons; [|apply Forall_cons; [|apply Forall_nil]]]]]].
  - split; [repeat split; cbn; lia|]. left. split; [|intros _; cov1]. intros p [<-|[]]. discriminate.
  - split; [split; [apply ex_mix_nat|cbn; lia]|]. left. split; [|intros _; cov1]. intros p Ip. cbn in Ip. repeat (destruct Ip as [<-|Ip]; [discriminate|]); destruct Ip.
  - split; [split; [apply ex_big_nat|cbn; lia]|]. left. split; [|intros H; cbn in H; lia]. intros p Ip. cbn in Ip. repeat (destruct Ip as [<-|Ip]; [discriminate|]); destruct Ip.
  - split; [repeat split; cbn; lia|]. right. reflexivity.
  - split; [repeat split; cbn; lia|]. left. split; [|intros _; cov1]. intros p [<-|[]]. discriminate.
  - split; [repeat split; cbn; lia|]. left. split; [|intros _; cov1]. intros p [<-|[]]. discriminate.
Qed.
Example C27_example : Forall abi_type ex_types /\ stack_bytes ex_types <= INT_MAX /\
  sysv_places ex_types int_regs sse_regs 0 =
    [InRegs [inl DI]; InRegs [inr 0%nat; inl SI]; OnStack 0; OnStack 32; InRegs [inr 1%nat]; InRegs [inl DX]].
Proof. split; [exact ex_abi|]. split; [cbn; unfold INT_MAX; lia|reflexivity]. Qed.

(** Seven structures of one long and one double: the seventh does not fit into registers; a later int goes to the stack too. *)
Definition ex_ld := ARec 16 8 [(0, AGp false 8); (8, ADouble)].
Example C27_full_example :
  sysv_places (repeat ex_ld 7 ++ [ex_int; ADouble]) int_regs sse_regs 0 =
    [InRegs [inl DI; inr 0%nat]; InRegs [inl SI; inr 1%nat]; InRegs [inl DX; inr 2%nat]; InRegs [inl CX; inr 3%nat];
     InRegs [inl R8; inr 4%nat]; InRegs [inl R9; inr 5%nat]; OnStack 0; OnStack 16; InRegs [inr 6%nat]].
Proof. reflexivity. Qed.

(** A call f(x, s) with x at 100(%rsp) and s at 200(%rsp), and parameters at -8(%rbp) and -32(%rbp). *)
Definition ex_srcs := [mkloc ex_int (BReg SP) 100 1100; mkloc ex_mix (BReg SP) 200 1200].
Definition ex_dsts := [mkloc ex_int (BReg BP) (-8) 792; mkloc ex_mix (BReg BP) (-32) 768].
Definition ex_m (f : Z -> Z) : xmach :=
  mkx (mkm (fun r => match r with SP => 1000 | BP => 800 | _ => 77 end) None f) (fun _ => 5).
Example C26_example :
  map l_ty ex_srcs = map l_ty ex_dsts ++ [] /\ Forall argument (map l_ty ex_srcs) /\ Forall full (map l_ty ex_dsts) /\
  Forall loc_ok ex_srcs /\ Forall loc_ok ex_dsts /\
  (forall f, Forall (located (fun _ => 0) (im (ex_m f))) ex_srcs /\ Forall (located (fun _ => 0) (im (ex_m f))) ex_dsts) /\
  ForallOrdPairs disjoint ex_dsts /\
  exists c1 c2 m1 m3, gen_reg_args (combine (combine (map l_ty ex_srcs) [None; None]) (map l_place ex_srcs)) 0 0 = Ok c1 /\
    save_params (combine (combine (map l_ty ex_dsts) [None; None]) (map l_place ex_dsts)) 0 0 = Ok c2 /\
    xrun (fun _ => 0) (concat c1) (ex_m (fun x => x mod 256)) = Some m1 /\ xrun (fun _ => 0) c2 m1 = Some m3 /\
    map (mm (im m3)) [792; 795; 768; 775; 776; 779; 780] = [1100 mod 256; 1103 mod 256; 1200 mod 256; 1207 mod 256; 1208 mod 256; 1211 mod 256; 780 mod 256].
Proof.
  split; [reflexivity|]. split. { apply Forall_cons; [repeat split; cbn; lia|]. apply Forall_cons; [|apply Forall_nil]. split; [apply ex_mix_nat|cbn; lia]. }
  split. { apply Forall_cons; [intros _; left; cov1|]. apply Forall_cons; [intros _; left; cov1|]. apply Forall_nil. }
  split. { repeat (apply Forall_cons || apply Forall_nil); repeat split; cbn; try lia; intuition discriminate. }
  split. { repeat (apply Forall_cons || apply Forall_nil); repeat split; cbn; try lia; intuition discriminate. }
  split. { intros f. split; repeat constructor; cbn; lia. }
  split. { constructor; [constructor; [right; cbn; lia|constructor]|]. constructor; constructor. }
  do 4 eexists. split; [reflexivity|]. split; [reflexivity|]. split; [reflexivity|]. split; [reflexivity|]. vm_compute. reflexivity.
Qed.

(** C27: a structure with a long double member is passed in two integer registers; the ABI says memory. *)
Theorem C27_long_double_refuted : let t := ARec 16 16 [(0, ALdouble)] in
  argument t /\ covered t /\
  (exists st, calling_convention [t] 0 0 = Ok ([None], st)) /\
  (exists c, gen_reg_args [(t, None, (BReg BP, -16))] 0 0 = Ok [c] /\ flat_map dest c = [inl DI; inl SI]) /\
  sysv_places [t] int_regs sse_regs 0 = [OnStack 0].
Proof.
  cbv zeta. split. { split; [|cbn; lia]. cbn. repeat split; try lia. - exists 4; cbn; lia. - constructor; constructor. }
  split; [cov1|]. split; [eexists; reflexivity|]. split; [eexists; split; reflexivity|reflexivity].
Qed.
Print Assumptions C27_long_double_refuted.

(** C27: an eightbyte without fields (struct { _Alignas(16) int i; }) takes an xmm register; by the ABI the
    next double goes to xmm0. *)
Theorem C27_padding_refuted : let t := ARec 16 16 [(0, AGp false 4)] in
  argument t /\ no_ldouble t /\
  (exists st, calling_convention [t; ADouble] 0 0 = Ok ([None; None], st)) /\
  (exists c1 c2, gen_reg_args [(t, None, (BReg BP, -16)); (ADouble, None, (BReg BP, -24))] 0 0 = Ok [c1; c2] /\
     flat_map dest c1 = [inl DI; inr 0%nat] /\ flat_map dest c2 = [inr 1%nat]) /\
  sysv_places [t; ADouble] int_regs sse_regs 0 = [InRegs [inl DI]; InRegs [inr 0%nat]].
Proof.
  cbv zeta. split. { split; [|cbn; lia]. cbn. repeat split; try lia. - exists 4; cbn; lia. - constructor; constructor. }
  split. { intros p Ip. cbn in Ip. repeat (destruct Ip as [<-|Ip]; [discriminate|]); destruct Ip. }
  split; [eexists; reflexivity|]. split; [do 2 eexists; repeat split; reflexivity|reflexivity].
Qed.
Print Assumptions C27_padding_refuted.

(** C27: an unnamed bit-field counts as an integer: struct { float f; int : 32; } *)
Theorem C27_unnamed_refuted : let t := ARec 8 4 [(0, AFloat); (4, APad 4)] in
  (exists c, gen_reg_args [(t, None, (BReg BP, -8))] 0 0 = Ok [c] /\ flat_map dest c = [inl DI]) /\
  sysv_places [t] int_regs sse_regs 0 = [InRegs [inr 0%nat]].
Proof. cbv zeta. split; [eexists; split; reflexivity|reflexivity]. Qed.
Print Assumptions C27_unnamed_refuted.

(** C26, C27: a packed structure { char c; double d; }: the ABI says memory, the caller uses two
    registers, and the compiler stops with an internal error at the function that takes it. *)
Theorem C27_packed_refuted : let t := ARec 9 1 [(0, AGp false 1); (1, ADouble)] in
  (exists st, calling_convention [t] 0 0 = Ok ([None], st)) /\
  (exists c, gen_reg_args [(t, None, (BReg BP, -16))] 0 0 = Ok [c] /\ flat_map dest c = [inl DI; inr 0%nat]) /\
  save_params [(t, None, (BReg BP, -16))] 0 0 = Abort /\
  sysv_places [t] int_regs sse_regs 0 = [OnStack 0].
Proof. cbv zeta. split; [eexists; reflexivity|]. split; [eexists; split; reflexivity|]. split; reflexivity. Qed.
Print Assumptions C27_packed_refuted.

(** C26: a scalar argument is read from its own bytes only; a small integer is extended to 32 bits. *)
Theorem C26_scalar : forall t b ofs gp fp, is_scalar t = true -> argument t -> t <> ALdouble -> (gp < 6)%nat ->
  exists c d q, place_reg_arg t b ofs gp fp = Ok (c, q) /\ flat_map dest c = [d] /\
  forall sym m, exists m', xrun sym c m = Some m' /\ mm (im m') = mm (im m) /\
    match d with inl r => rg (im m') r | inr x => xr m' x end = extended t (loadn (Z.to_nat (asize t)) (ea sym b ofs (im m)) (mm (im m))).
Proof. exact scalar_ok. Qed.
Print Assumptions C26_scalar.

(** A signed char of value -2. *)
Example C26_scalar_example : argument (AGp false 1) /\ extended (AGp false 1) 254 = 2 ^ 32 - 2 /\
  exists c m, place_reg_arg (AGp false 1) (BReg BP) (-1) 2 0 = Ok (c, (3%nat, 0%nat)) /\
    xrun (fun _ => 0) c (ex_m (fun _ => 254)) = Some m /\ rg (im m) DX = 2 ^ 32 - 2.
Proof. split; [split; [left; reflexivity|cbn; lia]|]. split; [reflexivity|]. do 2 eexists. split; [reflexivity|]. split; reflexivity. Qed.

(** C26: the caller reads bytes beyond the object: two memories that agree on a structure of three bytes
    give different registers. *)
Theorem C26_overread_refuted : let t := ARec 3 1 [(0, AArr 3 (AGp false 1))] in
  argument t /\
  exists c f g m1 m2, gen_reg_args [(t, None, (BReg SP, 0))] 0 0 = Ok [c] /\
    (forall k, 0 <= k < 3 -> f (1000 + k) = g (1000 + k)) /\
    xrun (fun _ => 0) c (ex_m f) = Some m1 /\ xrun (fun _ => 0) c (ex_m g) = Some m2 /\ rg (im m1) DI <> rg (im m2) DI.
Proof.
  cbv zeta. split. { split; [|cbn; lia]. cbn. repeat split; try lia. - exists 0; cbn; lia. - constructor; constructor. }
  eexists. exists (fun _ => 0), (fun x => if x <? 1003 then 0 else 1). do 2 eexists.
  split; [reflexivity|]. split. { intros k Hk. destruct (Z.ltb_spec (1000 + k) 1003); lia. }
  split; [reflexivity|]. split; [reflexivity|]. vm_compute. discriminate.
Qed.
Print Assumptions C26_overread_refuted.

(** A structure without members (an extension that struct_decl accepts, with size 0) as an argument aborts the compiler. *)
Theorem C26_empty_refuted : forall gp ts, calling_convention (ARec 0 1 [] :: ts) gp 0 = Abort.
Proof. reflexivity. Qed.
Print Assumptions C26_empty_refuted.
