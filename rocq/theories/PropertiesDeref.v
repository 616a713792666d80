(** C44: constant offsets folded into addresses. *)
From Coq Require Import ZArith List Bool Lia.
From Verif Require Import Base IntSpec IntModel IntTyped IntMain X86 CgModel CgSpec CgMain DerefSpec DerefModel
  CgLemmas DerefProofs PropertiesInt PropertiesCg.
Import ListNotations.
Local Open Scope Z_scope.

(** C44. The address of any object reached through pointers, constant offsets, members and array
    members: the code emitted for & of it leaves in %rax the address in a flat 64-bit address
    space, whatever the offsets; preserved registers and memory outside the temporaries are
    unchanged. *)
Theorem C44_address :
  forall (G : genv) (sym env : nat -> Z) (f : nat) (st st' : gst) (m : mach),
  (forall a b, same (gc G) a b = true -> a = b) ->
  saved (lptr G) -> 0 <= lvar_sz G <= peak st -> peak st' <= rg m (lptr G) < 2 ^ 64 ->
  forall (l : lval) (a : Z) (post : list instr),
  gen_addr_opt G f l st = Ok st' ->
  lgood G sym (rg m) (mm m) (rg m (lptr G) - peak st') (rg m (lptr G) - lvar_sz G) env l ->
  laddr env (mm m) l = Some a ->
  fresh_labels (out st ++ post) (cnt st) (cnt st') ->
  exists m', steps sym (out st' ++ post) (length (out st), m) (length (out st'), m') /\
    rg m' AX mod 2 ^ 64 = a /\ kept G (peak st') m m'.
Proof. exact addr_code. Qed.
Print Assumptions C44_address.

(** C44. The value of such an object, when the constants added since the last load amount to
    less than 2 GiB. *)
Theorem C44_load :
  forall (G : genv) (sym env : nat -> Z) (f : nat) (st st' : gst) (m : mach),
  (forall a b, same (gc G) a b = true -> a = b) ->
  saved (lptr G) -> 0 <= lvar_sz G <= peak st -> peak st' <= rg m (lptr G) < 2 ^ 64 ->
  forall (t : ityp) (l : lval) (a v : Z) (post : list instr),
  gen_load G f (mty t) l st = Ok st' ->
  lgood G sym (rg m) (mm m) (rg m (lptr G) - peak st') (rg m (lptr G) - lvar_sz G) env l ->
  lweight env l < 2 ^ 31 -> laddr env (mm m) l = Some a ->
  clear a (isize t) (rg m (lptr G) - peak st') (rg m (lptr G) - lvar_sz G) -> in_range t v ->
  loadn (Z.to_nat (isize t)) a (mm m) = v mod 2 ^ (8 * isize t) ->
  fresh_labels (out st ++ post) (cnt st) (cnt st') ->
  exists m', steps sym (out st' ++ post) (length (out st), m) (length (out st'), m') /\
    rg m' AX mod 2 ^ result_bits t = v mod 2 ^ result_bits t /\ kept G (peak st') m m'.
Proof. exact load_code. Qed.
Print Assumptions C44_load.

(** C44. The compiler emits this code, with any offsets. *)
Theorem C44_total :
  forall (G : genv) (env : nat -> Z),
  (forall a b, same (gc G) a b = true -> a = b) -> strict (gc G) = false ->
  saved (lptr G) -> 0 <= lvar_sz G ->
  forall l : lval, locals_ok G env l -> exists N, forall f, (N < f)%nat -> forall st,
  (exists st', gen_addr_opt G f l st = Ok st') /\ forall t, exists st', gen_load G f (mty t) l st = Ok st'.
Proof. exact deref_total. Qed.
Print Assumptions C44_total.

(** x0 points to 20000, where a structure has at offset 8 a pointer to 30000; the int at 30028
    is -7. *)
Definition mach2 : mach :=
  mkm (fun r => match r with BP => 10000 | _ => 77 end) None
      (fun a => if a =? 9984 then 20000 mod 256 else if a =? 9985 then 20000 / 256 else
                if a =? 20008 then 30000 mod 256 else if a =? 20009 then 30000 / 256 else
                if a =? 30028 then 249 else if (30029 <=? a) && (a <? 30032) then 255 else 0).
Definition env2 (x : nat) : Z := 20000.
(** The object x0->p[3].m, elements of 8 bytes, m at offset 4. *)
Definition chain : lval := LMem (LDeref (QAdd (QLoad (LMem (LDeref (QLeaf (EVar TULong 0))) 8)) 24)) 4.

Example C44_ex :
  let G := vars true true in
  laddr env2 (mm mach2) chain = Some 30028 /\ lweight env2 chain = 28 /\
  loadn 4 30028 (mm mach2) = (-7) mod 2 ^ 32 /\
  lgood G (fun _ => 0) (rg mach2) (mm mach2) (10000 - 200) (10000 - 200) env2 chain /\
  exists st2 st3, gen_load G 40 (mty TInt) chain st1 = Ok st2 /\ peak st2 = 200 /\ length (out st2) = 4%nat /\
    gen_addr_opt G 40 chain st1 = Ok st3 /\ locals_ok G env2 chain /\ fresh_labels (out st1 ++ []) (cnt st1) (cnt st2).
Proof.
  cbv zeta. split; [vm_compute; reflexivity|]. split; [vm_compute; reflexivity|]. split; [vm_compute; reflexivity|]. split.
  - cbn [lgood pgood chain]. split; [lia|]. split; [lia|]. split; [|split; [vm_compute; reflexivity|]].
    + split; [lia|]. split; [reflexivity|]. split; [vm_compute; split; discriminate|].
      split; [kn|]. split; [exact Logic.I|ob].
    + intros a E. vm_compute in E. injection E as <-. ob.
  - eexists. eexists. split; [vm_compute; reflexivity|]. split; [reflexivity|]. split; [reflexivity|].
    split; [vm_compute; reflexivity|]. split; [|split; [constructor|intros l []]].
    cbn [locals_ok leaves_ok chain]. split; [vm_compute; split; discriminate|]. split; [kn|]. split; [exact Logic.I|].
    intros n E. vm_compute in E. injection E as <-. exact Logic.I.
Qed.

(** C44 is false for the value when the offset is 2 GiB or more: load2 takes it as an int. With
    char *x0, the optimised code for x0[4294967296] reads x0[0]. *)
Definition far : lval := LDeref (QAdd (QLeaf (EVar TULong 0)) (2 ^ 32)).
Definition mach3 : mach :=
  mkm (fun r => match r with BP => 10000 | _ => 77 end) None
      (fun a => if a =? 9984 then 20000 mod 256 else if a =? 9985 then 20000 / 256 else
                if a =? 20000 then 5 else if a =? 20000 + 2 ^ 32 then 9 else 0).
Theorem C44_load_offset_refuted :
  exists (G : genv) (sym env : nat -> Z) (f : nat) (st st' : gst) (m m' : mach) (a : Z),
  (forall a b, same (gc G) a b = true -> a = b) /\
  saved (lptr G) /\ 0 <= lvar_sz G <= peak st /\ peak st' <= rg m (lptr G) < 2 ^ 64 /\
  gen_load G f (mty TChar) far st = Ok st' /\
  lgood G sym (rg m) (mm m) (rg m (lptr G) - peak st') (rg m (lptr G) - lvar_sz G) env far /\
  laddr env (mm m) far = Some a /\ clear a 1 (rg m (lptr G) - peak st') (rg m (lptr G) - lvar_sz G) /\
  loadn 1 a (mm m) = 9 /\
  steps sym (out st') (length (out st), m) (length (out st'), m') /\ rg m' AX mod 2 ^ 32 = 5.
Proof.
  pose (G := vars true true).
  destruct (gen_load G 40 (mty TChar) far st1) as [s| |] eqn:E; try (vm_compute in E; discriminate).
  assert (ES : out s = [Mov None (M (BReg BP) (-16)) (R S8 AX); Movx true S1 S4 (M (BReg AX) 0) (R S4 AX)]
    /\ peak s = 200) by (vm_compute in E; injection E as <-; split; reflexivity).
  destruct ES as [EO EP].
  assert (R0 : match run (fun _ => 0) (out s) None mach3 with Some (None, m') => rg m' AX mod 2 ^ 32 = 5 | _ => False end)
    by (rewrite EO; vm_compute; reflexivity).
  destruct (run (fun _ => 0) (out s) None mach3) as [[[?|] m']|] eqn:RU; try contradiction.
  exists G, (fun _ => 0), env2, 40%nat, st1, s, mach3, m', (20000 + 2 ^ 32).
  split; [exact ty_eqb_eq|]. split; [right; left; reflexivity|]. split; [cbn; lia|]. split; [rewrite EP; cbn; lia|]. split; [exact E|].
  split. { rewrite EP. cbn [lgood pgood far]. split; [lia|]. split; [reflexivity|]. split; [vm_compute; split; discriminate|].
      split; [kn|]. split; [exact Logic.I|ob]. }
  split; [vm_compute; reflexivity|]. split; [rewrite EP; ob|]. split; [vm_compute; reflexivity|].
  split; [|exact R0]. pose proof (run_steps (fun _ => 0) (out s) [] [] None mach3 m') as RS. cbn [app length] in RS. rewrite app_nil_r in RS.
  apply RS; [rewrite EO; constructor|exact RU].
Qed.
Print Assumptions C44_load_offset_refuted.

(** C44 is false when an integer narrower than a pointer is converted to one: the constant is
    taken out of the 32-bit sum. With unsigned x0 = 0xffffffff the optimised code for
    &*(char * )(x0 + 4u) computes 0x100000003. *)
Definition narrow : exp := EBin BAdd (EVar TUInt 0) (ENum TUInt 4).
Definition env4 (x : nat) : Z := 2 ^ 32 - 1.
Definition mach4 : mach :=
  mkm (fun r => match r with BP => 10000 | _ => 77 end) None (fun a => if (9984 <=? a) && (a <? 9988) then 255 else 0).
Theorem C44_narrow_integer_refuted :
  exists (G : genv) (sym : nat -> Z) (f : nat) (st st' : gst) (m m' : mach),
  (forall a b, same (gc G) a b = true -> a = b) /\
  saved (lptr G) /\ 0 <= lvar_sz G <= peak st /\ peak st' <= rg m (lptr G) < 2 ^ 64 /\
  gen_addr_opt G f (LDeref (QInt narrow)) st = Ok st' /\
  wf env4 narrow /\ known_ok (known (gc G)) env4 narrow /\ plain_casts narrow /\
  stored G sym (rg m) (mm m) (rg m (lptr G) - peak st') (rg m (lptr G) - lvar_sz G) env4 narrow /\
  ceval env4 narrow = Some 3 /\ laddr env4 (mm m) (LDeref (QInt narrow)) = Some 3 /\
  steps sym (out st') (length (out st), m) (length (out st'), m') /\ rg m' AX mod 2 ^ 64 = 2 ^ 32 + 3.
Proof.
  pose (G := vars true true).
  destruct (gen_addr_opt G 40 (LDeref (QInt narrow)) st1) as [s| |] eqn:E; try (vm_compute in E; discriminate).
  assert (ES : out s = [Mov (Some S4) (M (BReg BP) (-16)) (R S4 AX); Alu AAdd None (X86.I 4) (R S8 AX)]
    /\ peak s = 200) by (vm_compute in E; injection E as <-; split; reflexivity).
  destruct ES as [EO EP].
  assert (R0 : match run (fun _ => 0) (out s) None mach4 with Some (None, m') => rg m' AX mod 2 ^ 64 = 2 ^ 32 + 3 | _ => False end)
    by (rewrite EO; vm_compute; reflexivity).
  destruct (run (fun _ => 0) (out s) None mach4) as [[[?|] m']|] eqn:RU; try contradiction.
  exists G, (fun _ => 0), 40%nat, st1, s, mach4, m'.
  split; [exact ty_eqb_eq|]. split; [right; left; reflexivity|]. split; [cbn; lia|]. split; [rewrite EP; cbn; lia|]. split; [exact E|].
  split; [vm_compute; repeat split; discriminate|]. split; [unfold narrow; kn|]. split; [split; exact Logic.I|].
  split. { rewrite EP. ob. }
  split; [vm_compute; reflexivity|]. split; [vm_compute; reflexivity|].
  split; [|exact R0]. pose proof (run_steps (fun _ => 0) (out s) [] [] None mach4 m') as RS. cbn [app length] in RS. rewrite app_nil_r in RS.
  apply RS; [rewrite EO; constructor|exact RU].
Qed.
Print Assumptions C44_narrow_integer_refuted.
