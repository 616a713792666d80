(** C66: whole functions with integer parameters. *)
From Coq Require Import ZArith List Bool Lia.
From Verif Require Import Base IntSpec IntModel IntMain X86 CgModel CgSpec
  StmtSpec StmtModel StmtInterp StmtPlace ArgSpec ArgModel FunSpec FunModel FunMain PropertiesInt PropertiesStmt.
Import ListNotations.
Local Open Scope Z_scope.

(** C66. For every function with any number of integer parameters, called as the ABI says:
    from the first instruction up to the ret, if C defines the execution of the body, the code
    comes to its end with the returned value in %rax (0 at the end of main), %rsp, %rbp, %rbx
    and the return address as at the entry, and the variables as C says. Memory changes only
    in the frame and in variables. *)
Theorem C66_function :
  forall (G : genv) (sym : nat -> Z) (nul : nat),
  (forall a b, same (gc G) a b = true -> a = b) ->
  loc G nul = VHere -> known (gc G) nul = None ->
  forall (f : nat) (fn : func) (k : Z), fn_align fn = 2 ^ k -> 0 <= k <= 31 ->
  lptr G = (if aligned_frame fn then BX else BP) ->
  forall (others : list (ityp * nat)) (m : mach),
  let V := fn_params fn ++ others in
  let s := rg m SP in let L := frame_base fn s in let regs := frame_regs fn m in
  16 <= s < 2 ^ 64 -> 0 <= rg m BP < 2 ^ 64 -> 0 <= rg m BX < 2 ^ 64 ->
  (forall t x o, In (t, x) V -> loc G x <> VLoc SP o) ->
  separate G sym regs V ->
  (forall t x, In (t, x) V -> addressable G sym x) ->
  forall id c0 : Z, 0 <= id -> 0 <= c0 ->
  forall (code : list instr) (P : Z), emit_text G nul f fn id c0 = Ok (code, P) ->
  0 <= lvar_sz G -> (P + 15) / 16 * 16 <= L ->
  forall env : nat -> Z,
  uses_stmt V (fun x => known (gc G) x = None) (fn_body fn) ->
  NoDup (map snd V) ->
  (forall i t x, nth_error (fn_params fn) i = Some (t, x) ->
     known (gc G) x = None /\ in_range t (env x) /\ passed m i t (env x) /\
     match arg_place false i with
     | InReg _ => True
     | OnStack o => loc G x = VLoc BP (16 + o) /\ rg m SP + 8 + o < 2 ^ 64
     end) ->
  (forall t x, In (t, x) (fn_params fn) -> clear (obj_addr G sym regs x) (isize t) (L - P) (L - lvar_sz G)) ->
  held G sym regs (mm m) (L - P) (L - lvar_sz G) others env ->
  (forall t x, In (t, x) V -> clear (obj_addr G sym regs x) (isize t) (link_area fn s) (s + 8)) ->
  forall (env' : nat -> Z) (o : ending), exec (fn_ret fn) env (fn_body fn) env' o ->
  exists m', steps sym code (0%nat, m) (length code, m') /\
    result fn o (rg m' AX) /\ rg m' SP = s /\ rg m' BP = rg m BP /\ rg m' BX = rg m BX /\
    loadn 8 s (mm m') = loadn 8 s (mm m) /\
    held G sym regs (mm m') (L - P) (L - lvar_sz G) V env' /\
    (forall b, b < L - P \/ s <= b -> ~ of_variable G sym regs V b -> mm m' b = mm m b).
Proof. exact fun_code. Qed.
Print Assumptions C66_function.

(** C66. After the prologue %rsp is below everything the body uses, and 16-byte aligned if the
    caller has aligned it. *)
Theorem C66_stack :
  forall (G : genv) (sym : nat -> Z) (nul : nat),
  (forall a b, same (gc G) a b = true -> a = b) ->
  loc G nul = VHere -> known (gc G) nul = None ->
  forall (f : nat) (fn : func) (k : Z), fn_align fn = 2 ^ k -> 0 <= k <= 31 ->
  lptr G = (if aligned_frame fn then BX else BP) ->
  forall (others : list (ityp * nat)) (m : mach),
  let V := fn_params fn ++ others in
  let s := rg m SP in let L := frame_base fn s in let regs := frame_regs fn m in
  16 <= s < 2 ^ 64 -> 0 <= rg m BP < 2 ^ 64 -> 0 <= rg m BX < 2 ^ 64 ->
  separate G sym regs V ->
  (forall t x, In (t, x) V -> addressable G sym x) ->
  forall id c0 : Z, 0 <= id -> 0 <= c0 ->
  forall (code : list instr) (P : Z), emit_text G nul f fn id c0 = Ok (code, P) ->
  0 <= lvar_sz G -> (P + 15) / 16 * 16 <= L ->
  uses_stmt V (fun x => known (gc G) x = None) (fn_body fn) ->
  exists m1, steps sym code (0%nat, m) (S (length (prologue fn)), m1) /\
    rg m1 SP <= L - P /\ ((s + 8) mod 16 = 0 -> rg m1 SP mod 16 = 0).
Proof. exact fun_stack. Qed.
Print Assumptions C66_stack.

(** *** An instance: long f(short, int n, int s, _Bool, int, int, int p, unsigned char q) with
    the body [s += p - q;] followed by that of C55, with and without locals aligned to 64.
    p and q are on the stack; the registers have other bits set above the parameters. *)
Definition G66 (big o : bool) : genv :=
  let r := if big then BX else BP in
  mkgenv (cfg0 false o) false true 200 r
    (fun x => match x with
              | 9%nat => VHere | 4%nat => VGlob 7 true | 7%nat => VLoc BP 16 | 8%nat => VLoc BP 24
              | _ => VLoc r (- (16 + 8 * Z.of_nat x)) end)
    (fun _ => 0).
Definition f66 (big : bool) : func :=
  mkfunc TLong [(TShort, 0); (TInt, 1); (TInt, 2); (TBool, 3); (TInt, 5); (TInt, 6); (TInt, 7); (TUChar, 8)]%nat
    (SSeq (SExpr (XOp (ABin BAdd) TInt 2 (EBin BSub (EVar TInt 7) (EVar TUChar 8)))) s55)
    (if big then 64 else 16) false.
Definition others66 : list (ityp * nat) := [(TUChar, 4%nat)].
Definition mach66 : mach :=
  mkm (fun r => match r with
       | SP => 10008 | BP => 500 | BX => 600 | DI => 65536 | SI => 2 ^ 32 + 20 | CX => 256
       | R8 => 2 ^ 32 - 1 | R9 => 2 ^ 64 - 7 | _ => 0 end) None
      (fun a => if a =? 10016 then 5 else if a =? 10024 then 2 else if a =? 10025 then 99 else if a =? 4096 then 200 else 0).
Definition env66 (x : nat) : Z :=
  match x with 1%nat => 20 | 4%nat => 200 | 5%nat => -1 | 6%nat => -7 | 7%nat => 5 | 8%nat => 2 | _ => 0 end.
Ltac each66 H := cbn [f66 fn_params others66 app In] in H;
  repeat match type of H with _ \/ _ => destruct H as [H|H]; [injection H as <- <-|] | False => destruct H end.
Ltac clr66 := split; [vm_compute; discriminate|first [left; vm_compute; discriminate | right; vm_compute; discriminate]].

Example C66_ex : forall big o, let G := G66 big o in let fn := f66 big in let m := mach66 in
  let V := fn_params fn ++ others66 in let L := frame_base fn 10008 in let regs := frame_regs fn m in
  L = (if big then 9984 else 10000) /\
  (forall t x o, In (t, x) V -> loc G x <> VLoc SP o) /\
  separate G sym55 regs V /\ (forall t x, In (t, x) V -> addressable G sym55 x) /\
  (exists code, emit_text G 9 40 fn 5 0 = Ok (code, 200)) /\
  uses_stmt V (fun x => known (gc G) x = None) (fn_body fn) /\ NoDup (map snd V) /\
  (forall i t x, nth_error (fn_params fn) i = Some (t, x) ->
     known (gc G) x = None /\ in_range t (env66 x) /\ passed m i t (env66 x) /\
     match arg_place false i with
     | InReg _ => True
     | OnStack o => loc G x = VLoc BP (16 + o) /\ rg m SP + 8 + o < 2 ^ 64
     end) /\
  (forall t x, In (t, x) (fn_params fn) -> clear (obj_addr G sym55 regs x) (isize t) (L - 200) (L - lvar_sz G)) /\
  held G sym55 regs (mm m) (L - 200) (L - lvar_sz G) others66 env66 /\
  (forall t x, In (t, x) V -> clear (obj_addr G sym55 regs x) (isize t) (link_area fn 10008) (10008 + 8)) /\
  (exists env', exec TLong env66 (fn_body fn) env' (Return (Some 315))).
Proof.
  intros big o. cbv zeta.
  split; [destruct big; reflexivity|]. split; [|split; [|split; [|split; [|split; [|split; [|split; [|split; [|split; [|split]]]]]]]]].
  - intros t x z H. each66 H; destruct big; discriminate.
  - intros t x u y H1 H2. cbn [f66 fn_params others66 app In] in H1, H2.
    repeat match type of H1 with _ \/ _ => destruct H1 as [H1|H1] end; try contradiction; injection H1 as <- <-;
    repeat match type of H2 with _ \/ _ => destruct H2 as [H2|H2] end; try contradiction; injection H2 as <- <-;
    first [left; split; reflexivity | right; split; [discriminate|];
      destruct big; first [left; vm_compute; discriminate | right; vm_compute; discriminate]].
  - intros t x H. each66 H; destruct big; unfold addressable, saved; cbn; try tauto; (split; [split; [discriminate|reflexivity]|intros _; reflexivity]).
  - destruct big, o; eexists; vm_compute; reflexivity.
  - destruct o; unfold f66, s55; cbv zeta; cbn [fn_body fn_params uses_stmt uses_eff uses]; unfold in_range; repeat match goal with |- _ /\ _ => split end;
    first [exact Logic.I | reflexivity | (vm_compute; discriminate) | (cbn [In others66 app]; tauto)].
  - cbn. repeat constructor; cbn; intuition discriminate.
  - intros [|[|[|[|[|[|[|[|i]]]]]]]] t x H; cbn in H; try (injection H as <- <-);
      try (destruct i; discriminate H);
      (split; [reflexivity|split; [split; vm_compute; congruence|split; [vm_compute; reflexivity|]]]); try exact Logic.I;
      (split; [destruct big; reflexivity|reflexivity]).
  - intros t x H. cbn [f66 fn_params In] in H.
    repeat match type of H with _ \/ _ => destruct H as [H|H]; [injection H as <- <-|] | False => destruct H end; destruct big; clr66.
  - intros t x [H|[]]. injection H as <- <-. split; [split; vm_compute; congruence|]. split; [intros raw X; discriminate X|].
    split; [split; [split; [discriminate|reflexivity]|intros _; reflexivity]|]. split; [destruct big; clr66|reflexivity].
  - intros t x H. each66 H; destruct big; clr66.
  - eexists. eapply interp_exec with (f := 60%nat). vm_compute. reflexivity.
Qed.

(** The code itself, run on the model of the machine: the result, and the registers at the end. *)
Fixpoint go66 (n : nat) (p : list instr) (x : nat * mach) : option (nat * mach) :=
  match n with
  | O => None
  | S n' => if (fst x =? length p)%nat then Some x else match step sym55 p x with Some y => go66 n' p y | None => None end
  end.
Example C66_ex_run : forall big o,
  match emit_text (G66 big o) 9 40 (f66 big) 5 0 with
  | Ok (code, _) =>
      match go66 2000 code (0%nat, mach66) with
      | Some (_, m') => Some (map (rg m') [AX; SP; BP; BX], mm m' 4096)
      | None => None
      end
  | _ => None
  end = Some ([315; 10008; 500; 600], 196).
Proof. destruct big, o; vm_compute; reflexivity. Qed.
