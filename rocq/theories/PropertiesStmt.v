(** C55: machine code for statements over integer variables. *)
From Coq Require Import ZArith List Bool Lia.
From Verif Require Import Base IntSpec IntModel IntMain X86 CgModel CgSpec
  StmtSpec StmtModel StmtPlace StmtInterp StmtMain PropertiesInt.
Import ListNotations.
Local Open Scope Z_scope.

(** C55. Take any statement [s] built from expressions, assignments, compound assignments,
    increments, decrements, blocks, if, for, while, do, break, continue and return over integer
    variables [V] that are in memory and do not overlap. If the compiler accepts it and emits
    code, then executing the code from any machine state in which the variables have the values
    [env], whenever C says that [s] ends with values [env'], reaches the end of the code (or the
    return label) with the variables holding [env'] and a returned value in %rax. The preserved
    registers and all other memory outside the area of temporaries are unchanged. *)
Theorem C55_statement_code :
  forall (G : genv) (sym : nat -> Z) (V : list (ityp * nat)) (nul : nat),
  (forall a b, same (gc G) a b = true -> a = b) -> saved (lptr G) ->
  loc G nul = VHere -> known (gc G) nul = None ->
  forall (f : nat) (rtn : Z) (rt : ityp) (s : stmt) (ls : lstmt) (id id' : Z) (st st' : gst)
    (env : nat -> Z) (m : mach) (post : list instr) (k : nat),
  0 <= lvar_sz G <= peak st -> 0 <= rg m (lptr G) < 2 ^ 64 -> peak st' <= rg m (lptr G) ->
  0 <= cnt st -> 0 <= id ->
  uses_stmt V (fun x => known (gc G) x = None) s ->
  separate G sym (rg m) V ->
  held G sym (rg m) (mm m) (rg m (lptr G) - peak st') (rg m (lptr G) - lvar_sz G) V env ->
  parse_stmt (gc G) rt None id s = Ok (ls, id') -> gen_stmt G nul f rtn ls st = Ok st' ->
  labels_around (out st ++ post) (cnt st) (cnt st') id id' ->
  find_label (LRtn, rtn) (out st' ++ post) = Some k ->
  forall env' o, exec rt env s env' o ->
  exists k' m', continues o (length (out st')) k = Some k' /\
    steps sym (out st' ++ post) (length (out st), m) (k', m') /\
    held G sym (rg m) (mm m') (rg m (lptr G) - peak st') (rg m (lptr G) - lvar_sz G) V env' /\
    returned rt o (rg m' AX) /\
    (forall r, saved r -> rg m' r = rg m r) /\
    (forall a, a < rg m (lptr G) - peak st' \/ rg m (lptr G) - lvar_sz G <= a ->
       ~ of_variable G sym (rg m) V a -> mm m' a = mm m a).
Proof. exact stmt_code. Qed.
Print Assumptions C55_statement_code.

(** C55. The labels in the code of a statement are distinct, and numbered between the counters
    before and after. *)
Theorem C55_labels_distinct :
  forall (G : genv) (sym : nat -> Z) (V : list (ityp * nat)) (nul : nat),
  (forall a b, same (gc G) a b = true -> a = b) -> saved (lptr G) ->
  loc G nul = VHere -> known (gc G) nul = None ->
  forall (f : nat) (rtn : Z) (rt : ityp) (s : stmt) (ls : lstmt) (id id' : Z) (st st' : gst)
    (regs : reg -> Z),
  0 <= lvar_sz G -> 0 <= regs (lptr G) < 2 ^ 64 -> 0 <= cnt st -> 0 <= id ->
  uses_stmt V (fun x => known (gc G) x = None) s -> (forall t, ~ In (t, nul) V) ->
  separate G sym regs V ->
  parse_stmt (gc G) rt None id s = Ok (ls, id') -> gen_stmt G nul f rtn ls st = Ok st' ->
  exists code, out st' = out st ++ code /\ NoDup (labels code) /\
    forall l, In l (labels code) -> cnt st <= snd l < cnt st' \/ - id' <= snd l < - id.
Proof. exact stmt_labels. Qed.
Print Assumptions C55_labels_distinct.

(** *** An instance *)
Definition G55 (o : bool) : genv :=
  mkgenv (cfg0 false o) false true 200 BP
    (fun x => match x with 9%nat => VHere | 4%nat => VGlob 7 true | _ => VLoc BP (- (16 + 8 * Z.of_nat x)) end)
    (fun _ => 0).
Definition V55 : list (ityp * nat) :=
  [(TShort, 0); (TInt, 1); (TInt, 2); (TBool, 3); (TUChar, 4)]%nat.
(** short i; int n, s; _Bool b; unsigned char g (global):
    for (i = 0; i < n; i++) { if (i % 2) continue; if (s > 100) break; s += i * i; }
    do { n >>= 1; --s; g ^= s; b = s; } while (n > 1);
    if (b) return s + g; else s = 0; *)
Definition s55 : stmt :=
  let i := EVar TShort 0 in let n := EVar TInt 1 in let s := EVar TInt 2 in let g := EVar TUChar 4 in
  SSeq (SFor (XSet TShort 0 (ENum TInt 0)) (Some (ECmp CLt i n)) (XPost true TShort 0)
         (SSeq (SIf (EBin BMod i (ENum TInt 2)) SContinue)
         (SSeq (SIf (ECmp CGt s (ENum TInt 100)) SBreak)
               (SExpr (XOp (ABin BAdd) TInt 2 (EBin BMul i i))))))
  (SSeq (SDo (SSeq (SExpr (XOp AShr TInt 1 (ENum TInt 1)))
             (SSeq (SExpr (XSeq (XPre false TInt 2) (XOp (ABin BXor) TUChar 4 s)))
                   (SExpr (XSet TBool 3 s)))) (ECmp CGt n (ENum TInt 1)))
        (SIfElse (EVar TBool 3) (SReturn (Some (EBin BAdd s g))) (SExpr (XSet TInt 2 (ENum TInt 0))))).
Definition sym55 (s : nat) : Z := 4096.
Definition env55 (x : nat) : Z := match x with 1%nat => 20 | 2%nat => 3 | 4%nat => 200 | _ => 0 end.
Definition mach55 : mach :=
  mkm (fun r => match r with BP => 10000 | _ => 77 end) None
      (fun a => if a =? 10000 - 24 then 20 else if a =? 10000 - 32 then 3 else if a =? 4096 then 200 else 0).
Definition st55 : gst := mkgst [] [] 200 1.
Definition post55 : list instr := [Nop; Lab (LRtn, 0)].

Ltac each := intros t x H; cbn [V55 In] in H;
  repeat match type of H with _ \/ _ => destruct H as [H|H]; [injection H as <- <-|] | False => destruct H end.
Ltac ob := vm_compute; repeat match goal with |- _ /\ _ => split end;
  first [reflexivity | discriminate | exact Logic.I | (intros; discriminate) | (left; reflexivity)
        | (right; left; reflexivity) | (right; discriminate) | (left; discriminate)].

(** The loop runs until s exceeds 100 (i = 10), then n is halved four times. *)
Example C55_ex : forall o, let G := G55 o in
  uses_stmt V55 (fun x => known (gc G) x = None) s55 /\
  separate G sym55 (rg mach55) V55 /\
  held G sym55 (rg mach55) (mm mach55) (10000 - 200) (10000 - 200) V55 env55 /\
  (exists ls st', parse_stmt (gc G) TLong None 5 s55 = Ok (ls, 9) /\
    gen_stmt G 9 40 0 ls st55 = Ok st' /\ peak st' = 200 /\ find_label (LRtn, 0) (out st' ++ post55) <> None /\
    labels_around (out st55 ++ post55) (cnt st55) (cnt st') 5 9) /\
  (exists env', exec TLong env55 s55 env' (Return (Some 315)) /\ map env' [0; 1; 2; 3; 4]%nat = [10; 1; 119; 1; 196]).
Proof.
  intros o. cbv zeta. split; [|split; [|split; [|split]]].
  - destruct o; unfold s55; cbv zeta; cbn [uses_stmt uses_eff uses]; unfold in_range; repeat match goal with |- _ /\ _ => split end;
    first [exact Logic.I | reflexivity | (vm_compute; discriminate) | (cbn [In V55]; tauto)].
  - intros t x u y H1 H2. cbn [V55 In] in H1, H2.
    repeat match type of H1 with _ \/ _ => destruct H1 as [H1|H1] end; try contradiction; injection H1 as <- <-;
    repeat match type of H2 with _ \/ _ => destruct H2 as [H2|H2] end; try contradiction; injection H2 as <- <-;
    first [left; split; reflexivity | right; split; [discriminate|]; first [left; vm_compute; discriminate | right; vm_compute; discriminate]].
  - each; (split; [ob|split; [intros raw X; discriminate X|ob]]).
  - destruct o; eexists; eexists; (split; [vm_compute; reflexivity|split; [vm_compute; reflexivity|]]);
    (split; [vm_compute; reflexivity|split; [vm_compute; discriminate|]]);
    (split; [repeat constructor; intros []|intros l [<-|[]]; vm_compute; split; [left; reflexivity|right; discriminate]]).
  - eexists. split; [eapply interp_exec with (f := 60%nat); vm_compute; reflexivity|reflexivity].
Qed.
