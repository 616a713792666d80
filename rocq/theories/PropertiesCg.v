(** C18, C20, C45: machine code for integer expressions. *)
From Coq Require Import ZArith List Bool Lia.
From Verif Require Import Base IntSpec IntModel IntTyped IntMain X86 CgModel CgSpec CgMain CgTotal CgConst
  PropertiesInt.
Import ListNotations.
Local Open Scope Z_scope.

(** C18. Take any integer expression [e], well formed in [env], elaborated to [n] (with or
    without optimisation), and any code [post] following. If the objects of [e] are in memory and
    the compiler emits code for [n], executing that code from any machine state reaches its end
    with the C value of [e] in %rax; the preserved registers and all memory outside the area for
    temporaries are unchanged. *)
Theorem C18_expression_code :
  forall (G : genv) (sym env : nat -> Z) (e : exp) (n : node) (f : nat) (st st' : gst) (m : mach),
  (forall a b, same (gc G) a b = true -> a = b) ->
  wf env e -> known_ok (known (gc G)) env e -> plain_casts e ->
  elab (gc G) e = Ok n ->
  saved (lptr G) -> 0 <= lvar_sz G <= peak st -> peak st' <= rg m (lptr G) < 2 ^ 64 ->
  stored G sym (rg m) (mm m) (rg m (lptr G) - peak st') (rg m (lptr G) - lvar_sz G) env e ->
  forall (v : Z) (post : list instr),
  gen G f MExpr n st = Ok st' -> ceval env e = Some v ->
  fresh_labels (out st ++ post) (cnt st) (cnt st') ->
  exists m', steps sym (out st' ++ post) (length (out st), m) (length (out st'), m') /\
    rg m' AX mod 2 ^ result_bits (ctype e) = v mod 2 ^ result_bits (ctype e) /\
    kept G (peak st') m m'.
Proof. exact expr_code. Qed.
Print Assumptions C18_expression_code.

(** C18. The compiler does emit code: no internal error, no missing case, and the mutual
    recursion terminates, when constant shift counts can be written as immediates. *)
Theorem C18_codegen_total :
  forall (G : genv) (env : nat -> Z) (e : exp),
  (forall a b, same (gc G) a b = true -> a = b) -> strict (gc G) = false ->
  saved (lptr G) -> 0 <= lvar_sz G -> wf env e -> known_ok (known (gc G)) env e -> plain_casts e ->
  exists n, elab (gc G) e = Ok n /\
    (counts_ok (gc G) n -> exists f, forall st, exists st', gen G f MExpr n st = Ok st').
Proof. exact code_total. Qed.
Print Assumptions C18_codegen_total.

(** C45. The jump code for a condition goes to the label exactly when the truth value of the
    expression is [jc], and falls through otherwise. *)
Theorem C45_condition_code :
  forall (G : genv) (sym env : nat -> Z) (e : exp) (n : node) (f : nat) (st st' : gst) (m : mach),
  (forall a b, same (gc G) a b = true -> a = b) ->
  wf env e -> known_ok (known (gc G)) env e -> plain_casts e ->
  elab (gc G) e = Ok n ->
  saved (lptr G) -> 0 <= lvar_sz G <= peak st -> peak st' <= rg m (lptr G) < 2 ^ 64 ->
  stored G sym (rg m) (mm m) (rg m (lptr G) - peak st') (rg m (lptr G) - lvar_sz G) env e ->
  forall (jc : bool) (l : label) (v : Z) (k : node) (post : list instr),
  cond_cast (gc G) n = Ok k ->
  gen G f (MCond jc l) k st = Ok st' -> snd l < cnt st -> ceval env e = Some v ->
  fresh_labels (out st ++ post) (cnt st) (cnt st') ->
  forall t, find_label l (out st' ++ post) = Some t ->
  exists m', steps sym (out st' ++ post) (length (out st), m)
      (if Bool.eqb (negb (v =? 0)) jc then t else length (out st'), m') /\
    kept G (peak st') m m'.
Proof. exact cond_code. Qed.
Print Assumptions C45_condition_code.

(** C20. Add, subtract, multiply, and, or, xor by any 64-bit constant: code is emitted and
    computes the operation on 32- and 64-bit words. *)
Theorem C20_arithmetic_by_constant :
  forall (sym : nat -> Z) (o : binop) (n v : Z) (m : mach),
  n = 4 \/ n = 8 -> - 2 ^ 63 <= v < 2 ^ 63 -> o <> BDiv -> o <> BMod ->
  exists code m', imm_arith o n (limit_imm v n) = Ok code /\ run sym code None m = Some (None, m') /\
    rg m' AX mod 2 ^ (8 * n) = word_op o (rg m AX) v mod 2 ^ (8 * n) /\ only_acd m m'.
Proof. exact const_arith. Qed.
Print Assumptions C20_arithmetic_by_constant.

(** C20. Shifts by a constant count. *)
Theorem C20_shift_by_constant :
  forall (sym : nat -> Z) (o : xsh) (n v : Z) (m : mach),
  n = 4 \/ n = 8 -> 0 <= v < 8 * n ->
  exists code m', imm_shift o n v = Ok code /\ run sym code None m = Some (None, m') /\
    rg m' AX mod 2 ^ (8 * n) = word_shift o (8 * n) (rg m AX) v mod 2 ^ (8 * n) /\ only_acd m m'.
Proof. exact const_shift. Qed.
Print Assumptions C20_shift_by_constant.

(** C20. Whenever division or remainder by a constant is replaced by something cheaper, the
    code after the dividend computes the C quotient or remainder, whenever it is defined. *)
Theorem C20_division_by_constant :
  forall (rec : mode -> node -> gst -> outcome gst) (d : bool) (i : ityp) (e : node) (v : Z)
    (st st' : gst),
  i <> TBool -> 32 <= iwidth i ->
  divmod_opt rec d (mty i) e v st = Ok (Some st') ->
  exists st1 code, rec MExpr e st = Ok st1 /\ out st' = out st1 ++ code /\
    forall sym m x y w, in_range i x -> in_range i y -> v = rep64 y ->
      rg m AX mod 2 ^ iwidth i = x mod 2 ^ iwidth i ->
      c_bin (if d then BDiv else BMod) i x y = Some w ->
      exists m', run sym code None m = Some (None, m') /\
        rg m' AX mod 2 ^ iwidth i = w mod 2 ^ iwidth i /\ only_acd m m'.
Proof. exact const_divmod. Qed.
Print Assumptions C20_division_by_constant.

(** *** Instances *)
Definition vars (opt0 reuse0 : bool) : genv :=
  mkgenv (cfg0 false opt0) false reuse0 200 BP (fun x => VLoc BP (- (16 + 8 * Z.of_nat x))) (fun _ => 0).
Definition env1 (x : nat) : Z := Z.of_nat x + 3.
Definition mach1 : mach :=
  mkm (fun r => match r with BP => 10000 | _ => 77 end) None
      (fun a => if a mod 8 =? 0 then (10000 - 16 - a) / 8 + 3 else 255 * 0).
Definition st1 : gst := mkgst [] [] 200 0.
(** x0 * (x1 + (x2 * (x3 - ... ))) deep enough to need the stack for temporaries. *)
Fixpoint deep (k : nat) (x : nat) : exp :=
  match k with
  | O => EVar TInt x
  | S j => EBin (if Nat.even k then BSub else BAdd) (EVar TInt x) (deep j (S x))
  end.

Ltac ob := vm_compute; repeat match goal with |- _ /\ _ => split end;
  first [reflexivity | discriminate | exact Logic.I | (left; reflexivity) | (right; left; reflexivity)
        | (left; discriminate) | (right; discriminate)].

(** Spilling: nine live temporaries; 7 instructions store or load a stack slot. *)
Example C18_ex :
  let e := deep 9 0 in let G := vars false true in
  wf env1 e /\ plain_casts e /\ known_ok (known (gc G)) env1 e /\ ceval env1 e = Some 15 /\
  stored G (fun _ => 0) (rg mach1) (mm mach1) (10000 - 224) (10000 - 200) env1 e /\
  exists n st', elab (gc G) e = Ok n /\ gen G 40 MExpr n st1 = Ok st' /\ peak st' = 224 /\
    counts_ok (gc G) n /\
    length (filter (fun i => match i with Mov _ (R _ _) (M (BReg BP) _) => true | _ => false end)
       (out st')) = 3%nat /\
    fresh_labels (out st1 ++ []) (cnt st1) (cnt st').
Proof.
  cbv zeta. split; [conc|]. split; [conc|]. split; [cbn [deep]; kn|]. split; [vm_compute; reflexivity|]. split; [ob|].
  eexists. eexists. split; [vm_compute; reflexivity|]. split; [vm_compute; reflexivity|].
  split; [vm_compute; reflexivity|]. split; [conc|]. split; [vm_compute; reflexivity|].
  split; [constructor|intros l []].
Qed.

(** (x0 < 5 && !x1) || x2 ? ... with optimisation: jump code with two exits. *)
Example C45_ex :
  let e := ELOr (ELAnd (ECmp CLt (EVar TInt 0) (ENum TInt 5)) (EUn ULNot (EVar TShort 1)))
                (EVar TULong 2) in
  let G := vars true true in let st := mkgst [] [] 200 1 in
  wf env1 e /\ plain_casts e /\ known_ok (known (gc G)) env1 e /\ ceval env1 e = Some 1 /\
  stored G (fun _ => 0) (rg mach1) (mm mach1) (10000 - 200) (10000 - 200) env1 e /\
  exists n k st', elab (gc G) e = Ok n /\ cond_cast (gc G) n = Ok k /\
    gen G 40 (MCond false (LElse, 0)) k st = Ok st' /\ peak st' = 200 /\
    find_label (LElse, 0) (out st' ++ [Nop; Lab (LElse, 0)]) <> None /\
    fresh_labels (out st ++ [Nop; Lab (LElse, 0)]) (cnt st) (cnt st').
Proof.
  cbv zeta. split; [conc|]. split; [conc|]. split; [cbn [deep]; kn|]. split; [vm_compute; reflexivity|]. split; [ob|].
  eexists. eexists. eexists. split; [vm_compute; reflexivity|]. split; [vm_compute; reflexivity|].
  split; [vm_compute; reflexivity|]. split; [vm_compute; reflexivity|]. split; [vm_compute; discriminate|].
  split; [repeat constructor; intros []|]. intros l [<-|[]]. left. vm_compute. reflexivity.
Qed.

Example C20_ex :
  imm_arith BMul 4 (limit_imm 4096 4) = Ok [Sh XShl (CImm 12) (R S4 AX)] /\
  imm_arith BAnd 8 (limit_imm 1311768467463790320 8) =
    Ok [Mov None (I 1311768467463790320) (R S8 DX); Alu AAnd None (R S8 DX) (R S8 AX)] /\
  imm_shift XSar 8 63 = Ok [Sh XSar (CImm 63) (R S8 AX)].
Proof. repeat split. Qed.

(** x / ULONG_MAX, x % 65536 for unsigned x, and x % -1. *)
Example C20_division_ex :
  let rec := fun (_ : mode) (_ : node) (st : gst) => Ok st in
  let e := NVar ty_uint 0%nat in
  (exists st', divmod_opt rec true (mty TULong) e (rep64 18446744073709551615) st1 = Ok (Some st')) /\
  (exists st', divmod_opt rec false (mty TUInt) e (rep64 65536) st1 = Ok (Some st')) /\
  (exists st', divmod_opt rec false (mty TLong) e (rep64 (-1)) st1 = Ok (Some st')) /\
  c_bin BDiv TULong 18446744073709551615 18446744073709551615 = Some 1 /\ c_bin BMod TUInt 100000 65536 = Some 34464.
Proof. cbv zeta. split; [|split; [|split; [|split; vm_compute; reflexivity]]]; eexists; vm_compute; reflexivity. Qed.

(** C18 totality without the condition on shift counts is false: x1 && (x0 << 5000000000) is a
    valid expression with value 0 when x1 is 0, but no instruction can be emitted for it. *)
Theorem C18_codegen_total_refuted :
  ~ forall (G : genv) (env : nat -> Z) (e : exp),
    (forall a b, same (gc G) a b = true -> a = b) -> strict (gc G) = false ->
    saved (lptr G) -> 0 <= lvar_sz G -> wf env e -> known_ok (known (gc G)) env e -> plain_casts e ->
    ceval env e <> None ->
    exists n f st', elab (gc G) e = Ok n /\ gen G f MExpr n st1 = Ok st'.
Proof.
  intros H.
  set (e := ELAnd (EVar TInt 1) (EShl (EVar TInt 0) (ENum TLong 5000000000))).
  set (env := fun x : nat => 0).
  destruct (H (vars true true) env e) as [n [f [st' [E1 E2]]]];
  [exact ty_eqb_eq|reflexivity|right; left; reflexivity|vm_compute; discriminate|conc|unfold e; kn|conc|vm_compute; discriminate|].
  vm_compute in E1. injection E1 as <-.
  destruct f as [|[|[|[|[|[|f]]]]]]; vm_compute in E2; discriminate E2.
Qed.
Print Assumptions C18_codegen_total_refuted.
