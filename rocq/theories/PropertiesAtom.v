(** Operations on atomic objects: compound assignment (C34), exchange (C46), simple assignment (C53). *)
From Coq Require Import ZArith List Bool Lia.
From Verif Require Import Base IntSpec IntModel X86 CgModel AtomSpec AtomModel AtomProofs AtomExch.
Import ListNotations.
Local Open Scope Z_scope.

(** C34: any number of threads run the code of a compound assignment, increment or decrement on the same object, in any order, with any
    changes of the object by others in between. The history of the object has no gaps, each thread changes it at most once, by its
    operation, and a thread that is done has changed it exactly once and has the right value. *)
Theorem C34_atomic : forall t return_old code f g0 who g,
  atomic_op t return_old = Ok code ->
  (forall i v, 0 <= v < 2 ^ (8 * asz t) -> 0 <= f i v < 2 ^ (8 * asz t)) ->
  0 <= obj g0 < 2 ^ (8 * asz t) -> log g0 = [] -> (forall i, rest (thrs g0 i) = code) ->
  gsteps t code f who g0 g ->
  leads (obj g0) (log g) (obj g) /\ lawful f (log g) /\
  forall i, (length (own i (log g)) <= 1)%nat /\
    (rest (thrs g i) = [] ->
     exists a b, own i (log g) = [(Some i, a, b)] /\ acc t (thrs g i) = ext t (if return_old then a else b)).
Proof. intros t ro code f g0 who g HC HF H1 H2 H3. exact (atomic_ok t ro code f HC HF g0 who g (conj H1 (conj H2 H3))). Qed.
Print Assumptions C34_atomic.

(** C34: no other thread can block one: left alone, it finishes. *)
Theorem C34_alone : forall t return_old code f g0 who g i,
  atomic_op t return_old = Ok code ->
  (forall i v, 0 <= v < 2 ^ (8 * asz t) -> 0 <= f i v < 2 ^ (8 * asz t)) ->
  0 <= obj g0 < 2 ^ (8 * asz t) -> log g0 = [] -> (forall i, rest (thrs g0 i) = code) ->
  gsteps t code f who g0 g ->
  exists m g', (m <= 100)%nat /\ gsteps t code f (repeat (Some i) m) g g' /\ rest (thrs g' i) = [].
Proof. intros t ro code f g0 who g i HC HF H1 H2 H3. exact (alone t ro code f HC HF g0 who g i (conj H1 (conj H2 H3))). Qed.
Print Assumptions C34_alone.

(** Two threads on a 16-bit object: both read 5, thread 1 is first, thread 0 has to try again; x += 3 and x = 7 * x. *)
Definition ex_f (i : nat) (v : Z) : Z := (match i with O => v + 3 | _ => 7 * v end) mod 2 ^ 16.
Definition ex_code : list ai :=
  [LoadObj; StoreOld; LBegin; Compute; LoadNew; MovDx; MovOldAx; Cmpxchg; SeteCl; JeSkip; StoreOldAx; LSkip; MovzCl; JzBegin; LoadRes false].
Definition ex_g0 : gst := mkg (fun _ => mkt ex_code 77777777 1 2 3 false 4 5) 5 [].
Example C34_example :
  atomic_op (AInt TShort) false = Ok ex_code /\
  (forall i v, 0 <= v < 2 ^ (8 * asz (AInt TShort)) -> 0 <= ex_f i v < 2 ^ (8 * asz (AInt TShort))) /\
  exists g, gsteps (AInt TShort) ex_code ex_f (map Some (repeat 0%nat 5 ++ repeat 1%nat 13 ++ repeat 0%nat 19)) ex_g0 g /\
    (obj g = 38 /\ log g = [(Some 0%nat, 35, 38); (Some 1%nat, 5, 35)] /\
     rest (thrs g 0%nat) = [] /\ rest (thrs g 1%nat) = [] /\ acc (AInt TShort) (thrs g 0%nat) = 38).
Proof.
  split; [reflexivity|]. split; [intros i v _; apply Z.mod_pos_bound; reflexivity|].
  apply grun_ex. vm_compute. repeat split.
Qed.

(** C34 refuted for some programs: the operand is kept in a variable of its type, which is not known yet (a null pointer is
    dereferenced) when the operand is itself an assignment (a *= b = c, a *= b *= 2 with atomic b), and for every += and -=
    (so also ++ and --) on an atomic pointer. *)
Theorem C34_operand_refuted :
  assign (XAsg (Some OMul) (AInt TInt) true (XAsg None (AInt TInt) false (XLeaf (AInt TInt)))) = UB /\
  assign (XAsg (Some OMul) (AInt TInt) true (XAsg (Some OMul) (AInt TInt) true (XLeaf (AInt TInt)))) = UB /\
  (forall r u, assign r = Ok u -> assign (XAsg (Some OAdd) APtr true r) = UB /\ assign (XAsg (Some OSub) APtr true r) = UB).
Proof. split; [reflexivity|]. split; [reflexivity|]. intros r u H. cbn [assign]. rewrite H. split; reflexivity. Qed.
Print Assumptions C34_operand_refuted.

(** C46: the value of an exchange is the former value of the object, for types of at least four bytes, and for smaller unsigned types if
    the new value fits. *)
Theorem C46_exchange : forall sym T Tr b o code m v old,
  exch T (Some Tr) b o = Ok code -> in_range Tr v -> (b = BReg BP \/ b = BReg BX \/ exists s, b = BSym s) ->
  loadn (Z.to_nat (bytes_of Tr)) (ea sym b o m) (mm m) = v mod 2 ^ (8 * bytes_of Tr) ->
  in_range T old -> loadn (Z.to_nat (bytes_of T)) (rg m AX mod 2 ^ 64) (mm m) = old mod 2 ^ (8 * bytes_of T) ->
  4 <= bytes_of T \/ isigned T = false /\ 0 <= v < 2 ^ (8 * bytes_of T) ->
  exists m', run sym code None m = Some (None, m') /\ rg m' AX mod 2 ^ 32 = old mod 2 ^ 32 /\
    (bytes_of T = 8 -> rg m' AX mod 2 ^ 64 = old mod 2 ^ 64).
Proof. exact exch_value. Qed.
Print Assumptions C46_exchange.

(** Object at 4096, its address in %rax, the value at 8192 as at -4096 from %rbp. *)
Definition ex_m (objv val : Z) : mach :=
  mkm (fun r => match r with AX => 4096 | BP => 12288 | _ => 0 end) None (storen 8 8192 val (storen 8 4096 objv (fun _ => 0))).
Definition result (c : outcome (list instr)) (m : mach) : option mach :=
  match c with Ok c => match run (fun _ => 0) c None m with Some (None, m') => Some m' | _ => None end | _ => None end.
Example C46_example : exists m', result (exch TInt (Some TInt) (BReg BP) (-4096)) (ex_m (2 ^ 32 - 7) 9) = Some m' /\
  rg m' AX mod 2 ^ 32 = (-7) mod 2 ^ 32 /\ loadn 4 4096 (mm m') = 9.
Proof. eexists. split; [reflexivity|]. vm_compute. repeat split. Qed.

(** C46 refuted for small types: exchanging a signed char of value -1 with 0 yields 255, an unsigned char of value 1 with 256 yields 257. *)
Theorem C46_small_refuted :
  (exists m', result (exch TSChar (Some TSChar) (BReg BP) (-4096)) (ex_m 255 0) = Some m' /\ rg m' AX mod 2 ^ 32 = 255 /\
    (-1) mod 2 ^ 32 <> 255) /\
  (exists m', result (exch TUChar (Some TInt) (BReg BP) (-4096)) (ex_m 1 256) = Some m' /\ rg m' AX mod 2 ^ 32 = 257).
Proof. split; eexists; (split; [reflexivity|]); vm_compute; repeat split; discriminate. Qed.
Print Assumptions C46_small_refuted.

(** C53: simple assignment to an atomic object stores the converted value, changes nothing else, and yields the value, unless the object is
    a _Bool and the value neither 0 nor 1, or the object has eight bytes and the value fewer and is negative; the value of the expression is that of the
    right side. *)
Theorem C53_assign : forall sym T Tr b o code m v,
  atomic_assign T Tr b o = Ok code -> in_range Tr v -> (b = BReg BP \/ b = BReg BX \/ exists s, b = BSym s) ->
  loadn (Z.to_nat (bytes_of Tr)) (ea sym b o m) (mm m) = v mod 2 ^ (8 * bytes_of Tr) ->
  ea sym b o m + bytes_of Tr <= rg m AX mod 2 ^ 64 \/ rg m AX mod 2 ^ 64 + bytes_of T <= ea sym b o m ->
  (T <> TBool \/ v = 0 \/ v = 1) -> (bytes_of T = 8 -> bytes_of Tr = 8 \/ isigned Tr = false \/ 0 <= v) ->
  exists m', run sym code None m = Some (None, m') /\
    loadn (Z.to_nat (bytes_of T)) (rg m AX mod 2 ^ 64) (mm m') = conv T v mod 2 ^ (8 * bytes_of T) /\
    (forall a, a < rg m AX mod 2 ^ 64 \/ rg m AX mod 2 ^ 64 + bytes_of T <= a -> mm m' a = mm m a) /\
    (in_range T v -> rg m' AX mod 2 ^ 32 = conv T v mod 2 ^ 32 /\ (bytes_of Tr = 8 -> rg m' AX mod 2 ^ 64 = conv T v mod 2 ^ 64)).
Proof. exact assign_value. Qed.
Print Assumptions C53_assign.
Example C53_example : exists m', result (atomic_assign TShort TInt (BReg BP) (-4096)) (ex_m 5 (2 ^ 32 - 2)) = Some m' /\
  loadn 2 4096 (mm m') = (-2) mod 2 ^ 16 /\ rg m' AX mod 2 ^ 32 = (-2) mod 2 ^ 32.
Proof. eexists. split; [reflexivity|]. vm_compute. repeat split. Qed.

(** C53 refuted otherwise. With [_Atomic long l; int x = -1;] the assignment [l = x] stores 4294967295. With [_Atomic _Bool b;] the assignment
    [b = 2] stores 2. With [_Atomic signed char c;] the value of [(c = 300)] is 300 instead of 44. With [_Atomic float f;] the assignment [f = 1.0f]
    stores the low bytes of the address of [f], the value being in %xmm0. *)
Theorem C53_refuted :
  (exists m', result (atomic_assign TLong TInt (BReg BP) (-4096)) (ex_m 0 (2 ^ 32 - 1)) = Some m' /\
    loadn 8 4096 (mm m') = 4294967295 /\ conv TLong (-1) mod 2 ^ 64 <> 4294967295) /\
  (exists m', result (atomic_assign TBool TInt (BReg BP) (-4096)) (ex_m 0 2) = Some m' /\ loadn 1 4096 (mm m') = 2 /\ conv TBool 2 = 1) /\
  (exists m', result (atomic_assign TSChar TInt (BReg BP) (-4096)) (ex_m 0 300) = Some m' /\ rg m' AX mod 2 ^ 32 = 300 /\ conv TSChar 300 = 44) /\
  (forall v, exists m', result (exch TInt None (BReg BP) (-4096)) (ex_m v 1065353216) = Some m' /\ loadn 4 4096 (mm m') = 4096).
Proof.
  split; [|split; [|split]]; try (eexists; (split; [reflexivity|]); vm_compute; repeat split; discriminate).
Qed.
Print Assumptions C53_refuted.
