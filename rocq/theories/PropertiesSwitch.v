(** C23, C24: switch. *)
From Coq Require Import ZArith List Bool Lia.
From Verif Require Import Base IntSpec IntModel IntTyped IntMain X86 CgModel CgSpec CgMain SwitchSpec SwitchModel SwitchProofs SwitchCode
  PropertiesInt PropertiesCg.
Import ListNotations.
Local Open Scope Z_scope.

(** C24. With or without optimisation, case and default labels are accepted exactly when no range
    is empty, no value occurs twice and there is at most one default. *)
Theorem C24_labels_accepted :
  forall (t : SwitchSpec.ctype) (opt : bool) (is : list (item label)),
  ctype_ok t -> (forall z, In z (consts is) -> in_int64 z) -> Forall (one_sign t) is ->
  (valid t is <-> exists s, read_switch opt t is = Ok s) /\ (~ valid t is <-> read_switch opt t is = Abort).
Proof. exact accepted. Qed.
Print Assumptions C24_labels_accepted.

(** C24. Then each value belongs to one place. *)
Theorem C24_one_place :
  forall (L : Type) (t : SwitchSpec.ctype) (is : list (item L)) (brk : L) (v : Z) (l l' : L),
  valid t is -> goes t is brk v l -> goes t is brk v l' -> l = l'.
Proof. exact @goes_one. Qed.
Print Assumptions C24_one_place.

(** C23. In any program: the comparisons go to the label C asks for, whatever ranges were merged,
    and change %rcx, %rdx and flags only. *)
Theorem C23_dispatch :
  forall (sym : nat -> Z) (t : SwitchSpec.ctype) (opt : bool) (is : list (item label)) (s : sw) (brk : label)
    (code pre post : list instr) (v : Z) (m : mach),
  ctype_ok t -> (forall z, In z (consts is) -> in_int64 z) -> Forall (one_sign t) is ->
  read_switch opt t is = Ok s -> gen_switch t s brk = Ok code -> ct_value t v ->
  rg m AX mod 2 ^ (if ct_size t =? 8 then 64 else 32) = v mod 2 ^ (if ct_size t =? 8 then 64 else 32) ->
  NoDup (labels (pre ++ code ++ post)) ->
  exists l, goes t is brk v l /\ forall k, find_label l (pre ++ code ++ post) = Some k ->
    exists m', steps sym (pre ++ code ++ post) (length pre, m) (k, m') /\
      mm m' = mm m /\ forall r, r <> CX -> r <> DX -> rg m' r = rg m r.
Proof. exact dispatch_steps. Qed.
Print Assumptions C23_dispatch.

(** C23. The same with the code of the controlling expression before it. *)
Theorem C23_switch_code :
  forall (G : genv) (sym env : nat -> Z) (e : exp) (n : node) (f : nat) (st st' : gst) (m : mach) (opt : bool)
    (is : list (item label)) (s : sw) (brk : label) (code post : list instr) (v : Z),
  (forall a b, same (gc G) a b = true -> a = b) ->
  wf env e -> known_ok (known (gc G)) env e -> plain_casts e -> elab (gc G) e = Ok n ->
  saved (lptr G) -> 0 <= lvar_sz G <= peak st -> peak st' <= rg m (lptr G) < 2 ^ 64 ->
  stored G sym (rg m) (mm m) (rg m (lptr G) - peak st') (rg m (lptr G) - lvar_sz G) env e ->
  gen G f MExpr n st = Ok st' -> ceval env e = Some v ->
  ctype_ok (ct_of e) -> (forall z, In z (consts is) -> in_int64 z) -> Forall (one_sign (ct_of e)) is ->
  read_switch opt (ct_of e) is = Ok s -> gen_switch (ct_of e) s brk = Ok code ->
  fresh_labels (out st ++ code ++ post) (cnt st) (cnt st') ->
  exists l, goes (ct_of e) is brk v l /\ forall k, find_label l (out st' ++ code ++ post) = Some k ->
    exists m', steps sym (out st' ++ code ++ post) (length (out st), m) (k, m') /\ kept G (peak st') m m'.
Proof. exact switch_code. Qed.
Print Assumptions C23_switch_code.

(** C23. Code is emitted, if for 64-bit types the constants do not differ by 2^63 or more. *)
Theorem C23_total :
  forall (t : SwitchSpec.ctype), ctype_ok t -> forall (opt : bool) (is : list (item label)) (s : sw) (brk : label),
  (forall z, In z (consts is) -> in_int64 z) -> Forall (one_sign t) is -> read_switch opt t is = Ok s ->
  (ct_size t = 8 -> forall x y, In x (consts is) -> In y (consts is) -> in_int64 (x - y)) ->
  exists code, gen_switch t s brk = Ok code.
Proof. exact dispatch_total. Qed.
Print Assumptions C23_total.

(** *** Instances and refutations *)
Definition tint := mkct 4 32 false.
Definition tuchar := mkct 1 8 true.
Definition tlong := mkct 8 64 false.
Definition tulong := mkct 8 64 true.
Definition lb (k : Z) : label := (LOther, k).
Ltac inr := intros z Hz; cbn in Hz; repeat (destruct Hz as [<-|Hz]); [..|destruct Hz]; split; reflexivity || discriminate.

(** case 1: case 3: case 2: ...; case -5 ... -2: default: ...; case 100 ... 3000: ...
    The first three constants become one range; the range next to default needs no comparison. *)
Definition is1 := [ICase (lb 1) 1 1; ICase (lb 1) 3 3; ICase (lb 1) 2 2; ICase (lb 2) (-5) (-2); IDefault (lb 2); ICase (lb 3) 100 3000].
Example C23_ex :
  ctype_ok tint /\ (forall z, In z (consts is1) -> in_int64 z) /\ Forall (one_sign tint) is1 /\
  exists s, read_switch true tint is1 = Ok s /\
    sw_cases s = [mkcr (Some (lb 3)) 100 3000; mkcr (Some (lb 2)) (-5) (-2); mkcr None 3 3; mkcr (Some (lb 1)) 1 3] /\
    gen_switch tint s (lb 9) = Ok [
      Mov None (R S4 AX) (R S4 CX); Alu ASub None (I 100) (R S4 CX); Alu ACmp None (I 2900) (R S4 CX); Jcc CcBE (lb 3);
      Mov None (R S4 AX) (R S4 CX); Un XDec (R S4 CX); Alu ACmp None (I 2) (R S4 CX); Jcc CcBE (lb 1);
      Jmp (lb 2); Jmp (lb 9)] /\
    goes tint is1 (lb 9) 2 (lb 1) /\ goes tint is1 (lb 9) 50 (lb 2).
Proof.
  split; [vm_compute; repeat split; try discriminate; auto 8|]. split; [inr|].
  split; [repeat constructor; discriminate|].
  eexists. split; [vm_compute; reflexivity|]. split; [reflexivity|]. split; [vm_compute; reflexivity|]. split.
  - eapply goes_case; [right; right; left; reflexivity|vm_compute; split; discriminate].
  - apply goes_default; [cbn; auto 8|]. intros i Hi. cbn in Hi. repeat (destruct Hi as [<-|Hi]); [..|destruct Hi];
    intros H; vm_compute in H; try exact H; destruct H as [H1 H2]; first [apply H1; reflexivity | apply H2; reflexivity].
Qed.
Example C24_ex :
  read_switch true tint (is1 ++ [ICase (lb 4) 2 2]) = Abort /\ read_switch false tint (is1 ++ [ICase (lb 4) 2 2]) = Abort /\
  read_switch true tint [ICase (lb 1) 5 4] = Abort /\ read_switch true tint [IDefault (lb 1); IDefault (lb 1)] = Abort /\
  ~ valid tint (is1 ++ [ICase (lb 4) 2 2]).
Proof.
  split; [vm_compute; reflexivity|]. split; [vm_compute; reflexivity|]. split; [vm_compute; reflexivity|]. split; [vm_compute; reflexivity|].
  intros [_ V]. pose proof (ForallOrdPairs_In V (ICase (lb 1) 2 2) (ICase (lb 4) 2 2)) as H.
  destruct H as [E|[E|E]]; [cbn; auto 12|cbn; auto 12|discriminate| |]; apply (E 2); vm_compute; repeat split; discriminate.
Qed.
(** switch ((x1 + x2)) with a controlling expression. *)
Example C23_code_ex :
  let e := EBin BAdd (EVar TInt 1) (EVar TChar 2) in let G := vars true true in
  wf env1 e /\ plain_casts e /\ known_ok (known (gc G)) env1 e /\ ceval env1 e = Some 9 /\ ctype_ok (ct_of e) /\
  stored G (fun _ => 0) (rg mach1) (mm mach1) (10000 - 200) (10000 - 200) env1 e /\
  exists n st' s code, elab (gc G) e = Ok n /\ gen G 40 MExpr n st1 = Ok st' /\ peak st' = 200 /\
    read_switch true (ct_of e) [ICase (lb 100) 8 9; IDefault (lb 101)] = Ok s /\ gen_switch (ct_of e) s (lb 102) = Ok code /\
    fresh_labels (out st1 ++ code ++ [Lab (lb 100); Nop; Lab (lb 101); Lab (lb 102)]) (cnt st1) (cnt st').
Proof.
  cbv zeta. split; [conc|]. split; [conc|]. split; [kn|]. split; [vm_compute; reflexivity|].
  split; [vm_compute; repeat split; try discriminate; auto 8|]. split; [ob|].
  eexists. eexists. eexists. eexists. split; [vm_compute; reflexivity|]. split; [vm_compute; reflexivity|].
  split; [vm_compute; reflexivity|]. split; [vm_compute; reflexivity|]. split; [vm_compute; reflexivity|].
  split; [vm_compute; repeat (constructor; [intros H; cbn in H; repeat (destruct H as [H|H]); try discriminate; destruct H|]); constructor|].
  intros l Hl. vm_compute in Hl. right. repeat (destruct Hl as [<-|Hl]); [vm_compute; discriminate..|destruct Hl].
Qed.

(** C24 is false without [one_sign]: case constants are converted to the type of the controlling
    expression made 32 bits wide, not to int. For unsigned char, [case -1 ... 5] is good and
    rejected; [case 5 ... -1] is empty, accepted, and reached by 7. *)
Theorem C24_small_unsigned_refuted :
  (valid tuchar [ICase (lb 1) (-1) 5] /\ read_switch true tuchar [ICase (lb 1) (-1) 5] = Abort) /\
  (~ valid tuchar [ICase (lb 1) 5 (-1)] /\ exists s, read_switch true tuchar [ICase (lb 1) 5 (-1)] = Ok s).
Proof.
  split; split.
  - split; repeat constructor. vm_compute. discriminate.
  - vm_compute. reflexivity.
  - intros [V _]. inversion V as [|? ? Q]; subst. vm_compute in Q. apply Q. reflexivity.
  - eexists. vm_compute. reflexivity.
Qed.
Print Assumptions C24_small_unsigned_refuted.
Theorem C23_small_unsigned_refuted :
  exists s code m, read_switch true tuchar [ICase (lb 1) 5 (-1)] = Ok s /\ gen_switch tuchar s (lb 9) = Ok code /\
    ct_value tuchar 7 /\ rg m AX = 7 /\ (exists m', run (fun _ => 0) code None m = Some (Some (lb 1), m')) /\
    ~ goes tuchar [ICase (lb 1) 5 (-1)] (lb 9) 7 (lb 1).
Proof.
  eexists. eexists. exists (mkm (fun _ => 7) None (fun _ => 0)). split; [vm_compute; reflexivity|]. split; [vm_compute; reflexivity|].
  split; [vm_compute; split; [discriminate|reflexivity]|]. split; [reflexivity|]. split.
  - eexists. cbn [run]. vm_compute. reflexivity.
  - intros G. inversion G as [l lo hi IN X E|l IN X E|N X E].
    + destruct IN as [IN|[]]. injection IN as <- <-. vm_compute in X. destruct X as [_ X]. apply X. reflexivity.
    + destruct IN as [IN|[]]. discriminate.
Qed.
Print Assumptions C23_small_unsigned_refuted.

(** C23_total is false without its last hypothesis: the compiler computes hi - lo in int64_t, which
    overflows for one wide range, for an unsigned range across 2^63, and after merging. *)
Theorem C23_wide_range_refuted :
  (exists s, read_switch false tlong [ICase (lb 1) (- 2 ^ 63) (2 ^ 63 - 1)] = Ok s /\ gen_switch tlong s (lb 9) = UB) /\
  (exists s, read_switch false tulong [ICase (lb 1) 1 (- 2 ^ 63)] = Ok s /\ gen_switch tulong s (lb 9) = UB) /\
  (let is := [ICase (lb 1) (- 2 ^ 62) (-1); ICase (lb 1) 0 (2 ^ 63 - 1)] in
   exists s s', read_switch false tlong is = Ok s /\ (exists code, gen_switch tlong s (lb 9) = Ok code) /\
     read_switch true tlong is = Ok s' /\ gen_switch tlong s' (lb 9) = UB).
Proof.
  split; [|split].
  - eexists. split; [vm_compute; reflexivity|]. vm_compute. reflexivity.
  - eexists. split; [vm_compute; reflexivity|]. vm_compute. reflexivity.
  - eexists. eexists. split; [vm_compute; reflexivity|]. split; [eexists; vm_compute; reflexivity|]. split; [vm_compute; reflexivity|]. vm_compute. reflexivity.
Qed.
Print Assumptions C23_wide_range_refuted.
