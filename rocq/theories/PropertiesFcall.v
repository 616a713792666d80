(** C67: calls of functions. *)
From Coq Require Import ZArith List Bool Lia.
From Verif Require Import Base IntSpec IntModel IntMain X86 CgModel CgSpec
  StmtSpec StmtModel StmtInterp StmtPlace ArgSpec ArgModel FunSpec FunModel FcallSpec FcallModel FcallProofs FcallTmp
  PropertiesInt PropertiesStmt PropertiesArg PropertiesFun.
Import ListNotations.
Local Open Scope Z_scope.

(** C67. For every call, by name, of a function with integer parameters (any number): if C
    defines the values of the arguments, and the execution of the body of the callee from
    parameters with these values, then the code of the caller reaches the call, the code of
    the callee runs and finds the return address when it returns, and the code of the caller
    comes to its end with the result in %rax and %rsp, %rbp, %rbx as before. The variables of
    the callee (globals) have the values the body gave them, the variables of the caller that
    are not variables of the callee keep theirs, and memory changes only in the frames and
    in variables. *)
Theorem C67_call :
  forall (G : genv) (sym : nat -> Z),
  (forall a b, same (gc G) a b = true -> a = b) -> saved (lptr G) -> lptr G <> SP ->
  forall (f : nat) (V : list (ityp * nat)) (variadic : bool) (l : list sarg) (ns : list (node * nat))
    (ms : list marg) (st st2 st' : gst) (env : nat -> Z) (m : mach) (post : list instr),
  let n := (arg_stk_size (length l) + 15) / 16 * 16 in let q := rg m SP - n in
  let cr := rg (setr m SP q) in let lp := rg m (lptr G) in let P := peak st' in
  let objs := arg_objects l ms in
  0 <= lvar_sz G <= peak st -> 0 <= lp < 2 ^ 64 -> P <= lp ->
  (forall a, In a l -> uses V (sa_e a) /\ exists v, arg_value env a = Some v) ->
  parse_args (gc G) l = Ok ns ->
  gen_funcall G f variadic ns st = Ok (ms, st2, st') ->
  separate G sym cr (V ++ objs) -> NoDup (map snd objs) ->
  (forall t x, In (t, x) objs -> addressable G sym x /\ known (gc G) x = None /\ ~ In x (map snd V) /\
     clear (obj_addr G sym cr x) (isize t) (lp - P) (lp - lvar_sz G)) ->
  (forall a o, In a ms -> m_stk a = Some o -> loc G (m_x a) = VLoc SP o) ->
  held G sym cr (mm m) (lp - P) (lp - lvar_sz G) V env ->
  fresh_labels (out st ++ post) (cnt st) (cnt st') ->
  rg m SP < 2 ^ 64 -> 0 <= rg m BP < 2 ^ 64 -> 0 <= rg m BX < 2 ^ 64 ->
  forall ra : Z, 0 <= ra < 2 ^ 64 ->
  forall (G1 : genv) (nul1 f1 : nat),
  (forall a b, same (gc G1) a b = true -> a = b) -> loc G1 nul1 = VHere -> known (gc G1) nul1 = None ->
  forall (fn : func) (k : Z), fn_align fn = 2 ^ k -> 0 <= k <= 31 ->
  lptr G1 = (if aligned_frame fn then BX else BP) ->
  forall others : list (ityp * nat),
  let W := fn_params fn ++ others in let s := q - 8 in let L := frame_base fn s in
  let regs := frame_regs fn (setr m SP s) in
  16 <= s ->
  (forall t x o, In (t, x) W -> loc G1 x <> VLoc SP o) ->
  separate G1 sym regs W -> (forall t x, In (t, x) W -> addressable G1 sym x) ->
  forall id c0 : Z, 0 <= id -> 0 <= c0 ->
  forall (code : list instr) (P1 : Z), emit_text G1 nul1 f1 fn id c0 = Ok (code, P1) ->
  0 <= lvar_sz G1 -> (P1 + 15) / 16 * 16 <= L ->
  forall env1 : nat -> Z,
  uses_stmt W (fun x => known (gc G1) x = None) (fn_body fn) -> NoDup (map snd W) ->
  (forall i t x, nth_error (fn_params fn) i = Some (t, x) ->
     known (gc G1) x = None /\
     (exists a, nth_error l i = Some a /\ arg_type a = t /\ arg_value env a = Some (env1 x)) /\
     match arg_place false i with InReg _ => True | OnStack o => loc G1 x = VLoc BP (16 + o) end) ->
  (forall t x, In (t, x) (fn_params fn) -> clear (obj_addr G1 sym regs x) (isize t) (L - P1) (L - lvar_sz G1)) ->
  held G1 sym regs (mm m) (L - P1) (L - lvar_sz G1) others env1 ->
  (forall t y, In (t, y) others ->
     (exists x, In (t, x) V /\ obj_addr G sym cr x = obj_addr G1 sym regs y) \/
     (forall b, obj_addr G1 sym regs y <= b < obj_addr G1 sym regs y + isize t ->
        (b < lp - P \/ lp - lvar_sz G <= b) /\ ~ of_variable G sym cr (V ++ objs) b)) ->
  (forall t x, In (t, x) W -> clear (obj_addr G1 sym regs x) (isize t) (link_area fn s) (s + 8)) ->
  (forall t x, In (t, x) V -> clear (obj_addr G sym cr x) (isize t) (L - P1) (s + 8)) ->
  forall (env1' : nat -> Z) (o : ending), exec (fn_ret fn) env1 (fn_body fn) env1' o ->
  exists m1 m2 m3,
    steps sym (out st' ++ post) (length (out st), m) (length (out st2), m1) /\
    called sym code ra m1 m2 /\
    steps sym (out st' ++ post) (S (length (out st2)), m2) (length (out st'), m3) /\
    result fn o (rg m3 AX) /\ (forall r, saved r -> rg m3 r = rg m r) /\
    held G1 sym regs (mm m3) (L - P1) (L - lvar_sz G1) W env1' /\
    (forall t x, In (t, x) V ->
       (forall b, obj_addr G sym cr x <= b < obj_addr G sym cr x + isize t -> ~ of_variable G1 sym regs W b) ->
       loadn (Z.to_nat (isize t)) (obj_addr G sym cr x) (mm m3) = env x mod 2 ^ (8 * isize t)) /\
    (forall b, b < lp - P \/ lp - lvar_sz G <= b -> b < L - P1 \/ s + 8 <= b ->
       ~ of_variable G sym cr (V ++ objs) b -> ~ of_variable G1 sym regs W b -> mm m3 b = mm m b).
Proof. exact call_code. Qed.
Print Assumptions C67_call.

(** *** An instance: the function of C66 called as f(i, n, s - 3, b, s - 4, -7, s + 2, g - 198)
    by the caller of C65, with the last two arguments on the stack; both use the global g. *)
Definition l67 : list sarg :=
  let i := EVar TShort 0 in let n := EVar TInt 1 in let s := EVar TInt 2 in let b := EVar TBool 3 in let g := EVar TUChar 4 in
  let k z := ENum TInt z in
  [mksarg (Some TShort) i 20; mksarg (Some TInt) n 21; mksarg (Some TInt) (EBin BSub s (k 3%Z)) 22;
   mksarg (Some TBool) b 23; mksarg (Some TInt) (EBin BSub s (k 4%Z)) 24; mksarg (Some TInt) (EUn UNeg (k 7%Z)) 25;
   mksarg (Some TInt) (EBin BAdd s (k 2%Z)) 26; mksarg (Some TUChar) (EBin BSub g (k 198%Z)) 27]%nat.
Definition mach67 : mach :=
  mkm (fun r => match r with BP => 30000 | SP => 29000 | BX => 600 | _ => 77 end) None
      (fun a => if a =? 29976 then 20 else if a =? 29968 then 3 else if a =? 4096 then 200 else 0).

Example C67_ex : forall big o variadic,
  exists ns ms st2 st' code, parse_args (gc (G65 o)) l67 = Ok ns /\
    gen_funcall (G65 o) 40 variadic ns st55 = Ok (ms, st2, st') /\
    emit_text (G66 big o) 9 40 (f66 big) 5 0 = Ok (code, 200) /\
    exists m1 m2 m3,
      steps sym55 (out st') (length (out st55), mach67) (length (out st2), m1) /\
      called sym55 code 123456 m1 m2 /\
      steps sym55 (out st') (S (length (out st2)), m2) (length (out st'), m3) /\
      result (f66 big) (Return (Some 315)) (rg m3 AX) /\ map (rg m3) [SP; BP; BX] = [29000; 30000; 600] /\
      loadn 1 4096 (mm m3) = 196 /\ map (fun a => loadn 4 a (mm m3)) [29976; 29968] = [20; 3].
Proof.
  intros big o va.
  assert (exists ns ms st2 st' code, parse_args (gc (G65 o)) l67 = Ok ns /\
    gen_funcall (G65 o) 40 va ns st55 = Ok (ms, st2, st') /\ (peak st' = 200 /\ cnt st' = 1) /\
    emit_text (G66 big o) 9 40 (f66 big) 5 0 = Ok (code, 200) /\
    (forall a z, In a ms -> m_stk a = Some z -> loc (G65 o) (m_x a) = VLoc SP z) /\
    arg_objects l67 ms = if o then [(TInt, 22); (TInt, 24); (TInt, 26); (TUChar, 27)]%nat else
      [(TShort, 20); (TInt, 21); (TInt, 22); (TBool, 23); (TInt, 24); (TInt, 25); (TInt, 26); (TUChar, 27)]%nat) as X.
  { destruct big, o, va; do 5 eexists; (split; [vm_compute; reflexivity|split; [vm_compute; reflexivity|split; [split; reflexivity|
      split; [vm_compute; reflexivity|split; [|reflexivity]]]]]); intros a z H E; cbn [In] in H;
    repeat match type of H with _ \/ _ => destruct H as [H|H]; [subst a|] | False => destruct H end; cbn [m_stk] in E; try discriminate E;
    injection E as <-; reflexivity. }
  destruct X as (ns & ms & st2 & st' & code & PA & GF & (PK & CN) & EM & STK & OB).
  exists ns, ms, st2, st', code. split; [exact PA|]. split; [exact GF|]. split; [exact EM|].
  assert (exists env', exec TLong env66 (fn_body (f66 big)) env' (Return (Some 315)) /\ env' 4%nat = 196) as (env' & EX & E4).
  { eexists. split; [eapply interp_exec with (f := 60%nat); vm_compute; reflexivity|vm_compute; reflexivity]. }
  pose proof (fun CO SV NLS => C67_call (G65 o) sym55 CO SV NLS 40 V55 va l67 ns ms st55 st2 st' env55 mach67 []) as T.
  cbv zeta in T. rewrite PK, CN, OB, !app_nil_r in T.
  edestruct T with (ra := 123456) (G1 := G66 big o) (nul1 := 9%nat) (f1 := 40%nat) (fn := f66 big) (k := if big then 6 else 4)
    (others := others66) (id := 5) (c0 := 0) (code := code) (P1 := 200) (env1 := env66) (env1' := env') (o := Return (Some 315))
    as (m1 & m2 & m3 & S1 & S2 & S3 & RS & SVD & HD1 & HV & _).
  all: clear T.
  - exact ty_eqb_eq.
  - unfold saved; cbn; tauto.
  - discriminate.
  - split; discriminate.
  - split; [discriminate|reflexivity].
  - discriminate.
  - intros a H. cbn [l67 In] in H. repeat match type of H with _ \/ _ => destruct H as [H|H]; [subst a|] | False => destruct H end;
    (split; [cbn [sa_e uses]; unfold in_range; repeat match goal with |- _ /\ _ => split end;
       first [reflexivity | (vm_compute; discriminate) | (cbn [In V55]; tauto)]|eexists; vm_compute; reflexivity]).
  - exact PA.
  - exact GF.
  - clear - o. intros t x u y H1 H2. destruct o; cbn [V55 app] in H1, H2; split_in H1; split_in H2;
    first [left; split; reflexivity | right; split; [discriminate|]; first [left; vm_compute; discriminate | right; vm_compute; discriminate]].
  - clear - o. destruct o; repeat constructor; cbn [map snd In]; intuition discriminate.
  - clear - o. intros t x H. destruct o; split_in H; (split; [vm_compute; tauto|split; [reflexivity|split; [cbn [V55 map snd In]; intuition discriminate|]]]);
    vm_compute; split; first [discriminate | (left; discriminate) | (right; discriminate)].
  - exact STK.
  - clear. each; (split; [ob|split; [intros raw X; discriminate X|ob]]).
  - split; [constructor|intros l []].
  - reflexivity.
  - split; [discriminate|reflexivity].
  - split; [discriminate|reflexivity].
  - split; [discriminate|reflexivity].
  - exact ty_eqb_eq.
  - reflexivity.
  - reflexivity.
  - destruct big; reflexivity.
  - destruct big; split; discriminate.
  - destruct big; reflexivity.
  - discriminate.
  - exact (proj1 (proj2 (C66_ex big o))).
  - clear - big. intros t x u y H1 H2. each66 H1; each66 H2;
    first [left; split; reflexivity | right; split; [discriminate|];
      destruct big; first [left; vm_compute; discriminate | right; vm_compute; discriminate]].
  - exact (proj1 (proj2 (proj2 (proj2 (C66_ex big o))))).
  - discriminate.
  - discriminate.
  - exact EM.
  - discriminate.
  - destruct big; vm_compute; discriminate.
  - exact (proj1 (proj2 (proj2 (proj2 (proj2 (proj2 (C66_ex big o))))))).
  - exact (proj1 (proj2 (proj2 (proj2 (proj2 (proj2 (proj2 (C66_ex big o)))))))).
  - clear - big. intros [|[|[|[|[|[|[|[|i]]]]]]]] t x H; cbn in H; try (injection H as <- <-);
      try (destruct i; discriminate H);
      (split; [reflexivity|split; [eexists; (split; [reflexivity|split; vm_compute; reflexivity])|]]); try exact Logic.I;
      destruct big; reflexivity.
  - clear - big. intros t x H. cbn [f66 fn_params In] in H.
    repeat match type of H with _ \/ _ => destruct H as [H|H]; [injection H as <- <-|] | False => destruct H end; destruct big; clr66.
  - clear - big. intros t x [H|[]]. injection H as <- <-. split; [split; vm_compute; congruence|]. split; [intros raw X; discriminate X|].
    split; [split; [split; [discriminate|reflexivity]|intros _; reflexivity]|]. split; [destruct big; clr66|reflexivity].
  - clear. intros t x [H|[]]. injection H as <- <-. left. exists 4%nat. split; [cbn [In V55]; tauto|reflexivity].
  - clear - big. intros t x H. each66 H; destruct big; clr66.
  - clear - big. intros t x H. unfold V55 in H. split_in H; destruct big; clr66.
  - exact EX.
  - exists m1, m2, m3. split; [exact S1|]. split; [exact S2|]. split; [exact S3|]. split; [exact RS|].
    split; [cbn [map]; rewrite !SVD by (unfold saved; tauto); reflexivity|].
    assert (X : In (TUChar, 4%nat) (fn_params (f66 big) ++ others66)) by (cbn; tauto).
    destruct (HD1 _ _ X) as (_ & _ & _ & _ & Y). rewrite E4 in Y. split; [exact Y|].
    assert (NO : forall a, a = 29976 \/ a = 29968 -> forall b, a <= b < a + 4 ->
      ~ of_variable (G66 big o) sym55 (frame_regs (f66 big)
          (setr mach67 SP (rg mach67 SP - (arg_stk_size (length l67) + 15) / 16 * 16 - 8))) (fn_params (f66 big) ++ others66) b).
    { clear. intros a A b B (t & x & H & _ & _ & H1).
      match type of H1 with b < ?e => assert (Q : e <= 29000) end.
      { each66 H; destruct big; vm_compute; discriminate. }
      clear H. destruct A as [-> | ->]; lia. }
    pose proof (HV TInt 1%nat ltac:(cbn; tauto) (NO _ (or_introl eq_refl))) as E1.
    pose proof (HV TInt 2%nat ltac:(cbn; tauto) (NO _ (or_intror eq_refl))) as E2.
    cbn [map]. f_equal; [exact E1|]. f_equal. exact E2.
Qed.

(** C67. No temporary is in a register during the call, which may change the register: a value that was saved
    before the call and is taken back after it (after [k] later ones) is stored in the frame at the place where it was saved and
    loaded from there. *)
Theorem C67_temporaries : forall (G : genv) (f : nat),
  (forall a b, same (gc G) a b = true -> a = b) -> saved (lptr G) -> 0 <= lvar_sz G ->
  forall variadic l st ms st2 st', gen_funcall G f variadic l st = Ok (ms, st2, st') ->
  length (slots st') = length (slots st) /\
  forall k st3, Forall2 (fun s s' => s_kind s' = s_kind s /\ s_loc s' = s_loc s) (skipn k (slots st')) (slots st3) ->
  forall src r64 d must r st4, pop_from G src r64 d must st3 = Ok (r, st4) ->
  exists x ofs, nth_error (slots st) k = Some x /\ r = d /\
    out st4 = upd (out st3) (s_loc x) (Mov None (R (gsize r64) src) (M (BReg (lptr G)) ofs)) ++
      [Mov None (M (BReg (lptr G)) ofs) (R (gsize r64) d)].
Proof.
  intros G f A B C variadic l st ms st2 st' H. split.
  - exact (call_length G f A B C variadic l st ms st2 st' H).
  - exact (call_pop G f A B C variadic l st ms st2 st' H).
Qed.
Print Assumptions C67_temporaries.

(** Two values are saved, f() is called, and the second value is taken back. *)
Example C67_temporaries_ex : forall o,
  let G := G65 o in let st := push (emit [Alu AAdd None (I 1) (R S8 AX)] (push st55)) in
  saved (lptr G) /\ 0 <= lvar_sz G /\
  exists st2 st' st4, gen_funcall G 40 false [] st = Ok ([], st2, st') /\ length (slots st') = 2%nat /\
    pop_from G AX true DI false st' = Ok (DI, st4) /\
    nth_error (out st4) (length (out st55) + 2) = Some (Mov None (R S8 AX) (M (BReg (lptr G)) (- peak st4))) /\
    last (out st4) Nop = Mov None (M (BReg (lptr G)) (- peak st4)) (R S8 DI).
Proof.
  intros o. cbv zeta. split; [destruct o; vm_compute; tauto|]. split; [destruct o; vm_compute; discriminate|].
  destruct o; do 3 eexists; (split; [vm_compute; reflexivity|]); (split; [vm_compute; reflexivity|]); (split; [vm_compute; reflexivity|]); split; vm_compute; reflexivity.
Qed.
