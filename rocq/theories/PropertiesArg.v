(** C65: the integer arguments of calls. *)
From Coq Require Import ZArith List Bool Lia.
From Verif Require Import Base IntSpec IntModel IntMain X86 CgModel CgSpec
  StmtSpec StmtModel StmtPlace ArgSpec ArgModel ArgMain PropertiesInt PropertiesStmt.
Import ListNotations.
Local Open Scope Z_scope.

(** C65. For every list of integer arguments, of any number and length, whose values C
    defines: once the code for the arguments has run, the i-th argument, converted to the type
    of its parameter or promoted, is where the ABI says (%rdi, %rsi, %rdx, %rcx, %r8, %r9, or
    the stack); the variables of the program have their values, and nothing is changed but
    these, the objects made for the arguments, and the area of temporaries. Register
    arguments fill at least 32 bits. *)
Theorem C65_arguments :
  forall (G : genv) (sym : nat -> Z),
  (forall a b, same (gc G) a b = true -> a = b) -> saved (lptr G) ->
  forall (f : nat) (V : list (ityp * nat)) (hidden : bool) (l : list sarg) (ns : list (node * nat))
    (ms : list marg) (st st' : gst) (env : nat -> Z) (m : mach) (post : list instr),
  0 <= lvar_sz G <= peak st -> 0 <= rg m (lptr G) < 2 ^ 64 -> peak st' <= rg m (lptr G) ->
  (forall a, In a l -> uses V (sa_e a) /\ exists v, arg_value env a = Some v) ->
  parse_args (gc G) l = Ok ns -> prepare_funcall G hidden ns = Ok ms ->
  separate G sym (rg m) (V ++ arg_objects l ms) ->
  NoDup (map snd (arg_objects l ms)) ->
  (forall t x, In (t, x) (arg_objects l ms) ->
     addressable G sym x /\ known (gc G) x = None /\ ~ In x (map snd V) /\
     clear (obj_addr G sym (rg m) x) (isize t) (rg m (lptr G) - peak st') (rg m (lptr G) - lvar_sz G)) ->
  (forall a o, In a ms -> m_stk a = Some o -> loc G (m_x a) = VLoc SP o) ->
  held G sym (rg m) (mm m) (rg m (lptr G) - peak st') (rg m (lptr G) - lvar_sz G) V env ->
  gen_funcall_args G f hidden ms st = Ok st' ->
  fresh_labels (out st ++ post) (cnt st) (cnt st') ->
  exists m', steps sym (out st' ++ post) (length (out st), m) (length (out st'), m') /\
    (forall i a v, nth_error l i = Some a -> arg_value env a = Some v ->
       match arg_place hidden i with
       | InReg r => rg m' r mod 2 ^ result_bits (arg_type a) = v mod 2 ^ result_bits (arg_type a)
       | OnStack o => loadn (Z.to_nat (isize (arg_type a))) ((rg m SP + o) mod 2 ^ 64) (mm m') =
                      v mod 2 ^ (8 * isize (arg_type a))
       end) /\
    held G sym (rg m) (mm m') (rg m (lptr G) - peak st') (rg m (lptr G) - lvar_sz G) V env /\
    (forall r, saved r -> rg m' r = rg m r) /\
    (forall b, b < rg m (lptr G) - peak st' \/ rg m (lptr G) - lvar_sz G <= b ->
       ~ of_variable G sym (rg m) (V ++ arg_objects l ms) b -> mm m' b = mm m b).
Proof. exact args_code. Qed.
Print Assumptions C65_arguments.

(** *** An instance: f(short, long, _Bool, unsigned, int, ...) called with
    (n * s * 1000, -n, s + n, g, 7, i, b - n converted to _Bool, g), where the last two
    arguments are on the stack at %rsp = 9000. *)
Definition G65 (o : bool) : genv :=
  mkgenv (cfg0 false o) false true 200 BP
    (fun x => if (x =? 26)%nat then VLoc SP 0 else if (x =? 27)%nat then VLoc SP 8 else loc (G55 o) (if (20 <=? x)%nat then x - 10 else x)%nat)
    (fun _ => 0).
Definition mach65 : mach :=
  mkm (fun r => match r with BP => 10000 | SP => 9000 | _ => 77 end) None (mm mach55).
Definition l65 : list sarg :=
  let i := EVar TShort 0 in let n := EVar TInt 1 in let s := EVar TInt 2 in let b := EVar TBool 3 in let g := EVar TUChar 4 in
  [mksarg (Some TShort) (EBin BMul (EBin BMul n s) (ENum TInt 1000)) 20;
   mksarg (Some TLong) (EUn UNeg n) 21;
   mksarg (Some TBool) (EBin BAdd s n) 22;
   mksarg (Some TUInt) g 23;
   mksarg (Some TInt) (ENum TInt 7) 24;
   mksarg None i 25;
   mksarg (Some TBool) (EBin BSub b n) 26;
   mksarg None g 27]%nat.

(** Which arguments get an object: with optimisation only those that are not loads or
    constants, nor the first, nor on the stack. *)
Example C65_ex_objects : forall o, exists ns ms, parse_args (gc (G65 o)) l65 = Ok ns /\
  prepare_funcall (G65 o) false ns = Ok ms /\
  map snd (arg_objects l65 ms) = (if o then [21; 22; 26; 27] else [20; 21; 22; 23; 24; 25; 26; 27])%nat.
Proof. destruct o; do 2 eexists; (split; [vm_compute; reflexivity|split; vm_compute; reflexivity]). Qed.

Example ex65_objects o ns ms : parse_args (gc (G65 o)) l65 = Ok ns -> prepare_funcall (G65 o) false ns = Ok ms ->
  arg_objects l65 ms = if o then [(TLong, 21); (TBool, 22); (TBool, 26); (TInt, 27)]%nat else
    [(TShort, 20); (TLong, 21); (TBool, 22); (TUInt, 23); (TInt, 24); (TInt, 25); (TBool, 26); (TInt, 27)]%nat.
Proof. destruct o; intros H; vm_compute in H; injection H as <-; intros H; vm_compute in H; injection H as <-; reflexivity. Qed.

Ltac split_in H := cbn [In app] in H; repeat match type of H with _ \/ _ => destruct H as [H|H]; [injection H as <- <-|] | False => destruct H end.

Example C65_ex : forall o ns ms, let G := G65 o in let P := 200 in
  parse_args (gc G) l65 = Ok ns -> prepare_funcall G false ns = Ok ms ->
  (forall a, In a l65 -> uses V55 (sa_e a) /\ exists v, arg_value env55 a = Some v) /\
  separate G sym55 (rg mach65) (V55 ++ arg_objects l65 ms) /\
  NoDup (map snd (arg_objects l65 ms)) /\
  (forall t x, In (t, x) (arg_objects l65 ms) ->
     addressable G sym55 x /\ known (gc G) x = None /\ ~ In x (map snd V55) /\
     clear (obj_addr G sym55 (rg mach65) x) (isize t) (10000 - P) (10000 - 200)) /\
  (forall a o, In a ms -> m_stk a = Some o -> loc G (m_x a) = VLoc SP o) /\
  held G sym55 (rg mach65) (mm mach65) (10000 - P) (10000 - 200) V55 env55 /\
  (exists st', gen_funcall_args G 40 false ms st55 = Ok st' /\ peak st' = P).
Proof.
  intros o ns ms. cbv zeta. intros PA PR. pose proof (ex65_objects o ns ms PA PR) as OB. rewrite OB.
  split; [|split; [|split; [|split; [|split; [|split]]]]].
  - intros a H. cbn [l65 In] in H. repeat match type of H with _ \/ _ => destruct H as [H|H]; [subst a|] | False => destruct H end;
    (split; [cbn [sa_e uses]; unfold in_range; repeat match goal with |- _ /\ _ => split end;
       first [reflexivity | (vm_compute; discriminate) | (cbn [In V55]; tauto)]|eexists; vm_compute; reflexivity]).
  - intros t x u y H1 H2. destruct o; cbn [V55 app] in H1, H2; split_in H1; split_in H2;
    first [left; split; reflexivity | right; split; [discriminate|]; first [left; vm_compute; discriminate | right; vm_compute; discriminate]].
  - destruct o; repeat constructor; cbn [map snd In]; intuition discriminate.
  - intros t x H. destruct o; split_in H; (split; [vm_compute; tauto|split; [reflexivity|split; [cbn [V55 map snd In]; intuition discriminate|]]]);
    vm_compute; split; first [discriminate | (left; discriminate) | (right; discriminate)].
  - destruct o; vm_compute in PA; injection PA as <-; vm_compute in PR; injection PR as <-; intros a k H E; cbn [In] in H;
    repeat match type of H with _ \/ _ => destruct H as [H|H]; [subst a|] | False => destruct H end; cbn [m_stk] in E; try discriminate E;
    injection E as <-; reflexivity.
  - each; (split; [ob|split; [intros raw X; discriminate X|ob]]).
  - destruct o; vm_compute in PA; injection PA as <-; vm_compute in PR; injection PR as <-; eexists; (split; vm_compute; reflexivity).
Qed.

(** What the theorem then says about the six registers and the two stack slots. *)
Example C65_ex_values : map (arg_value env55) l65 =
    [Some (-5536); Some (-20); Some 1; Some 200; Some 7; Some 0; Some 1; Some 200] /\
  map (arg_place false) [0; 1; 2; 3; 4; 5; 6; 7]%nat =
    [InReg DI; InReg SI; InReg DX; InReg CX; InReg R8; InReg R9; OnStack 0; OnStack 8] /\
  map (arg_place true) [0; 4; 5; 6]%nat = [InReg SI; InReg R9; OnStack 0; OnStack 8].
Proof. vm_compute. repeat split. Qed.
