(** C64: assignments, compound assignments, ++ and -- on bit-fields. *)
From Coq Require Import ZArith List Bool Lia.
From Verif Require Import Base IntSpec IntModel IntMain X86 CgModel CgSpec BfSpec
  StmtSpec StmtModel StmtPlace BfModel BfOpSpec BfOpModel BfOpMain PropertiesInt PropertiesStmt.
Import ListNotations.
Local Open Scope Z_scope.

(** C64. For every bit-field of every integer type and every expression: the code of an
    assignment to it puts the value C prescribes into the bits of the field, changes no other
    bit of its storage unit, no other memory outside the area of temporaries and no preserved
    register, and leaves the value of the expression in %rax if it is used. Excluded are the
    fields and values of C21 that are read wrong and divisions that C64_division_refuted is
    about. *)
Theorem C64_assign :
  forall (G : genv) (sym : nat -> Z) (V : list (ityp * nat)) (nul : nat),
  (forall a b, same (gc G) a b = true -> a = b) -> saved (lptr G) ->
  loc G nul = VHere -> known (gc G) nul = None ->
  forall (f : nat) (t : ityp) (w off : Z) (x : nat) (a : beff) (n : bnode) (void : bool)
    (st st' : gst) (env : nat -> Z) (m : mach) (post : list instr) (v : Z),
  let lo := rg m (lptr G) - peak st' in
  let hi := rg m (lptr G) - lvar_sz G in
  let ua := (obj_addr G sym (rg m) x + moff G x) mod 2 ^ 64 in
  let unit_of m := loadn (Z.to_nat (isize t)) ua (mm m) in
  0 <= lvar_sz G <= peak st -> 0 <= rg m (lptr G) < 2 ^ 64 -> peak st' <= rg m (lptr G) ->
  width_ok t w -> inside t w off -> (reads a -> ~ bad_field t w off) ->
  addressable G sym x -> 0 <= moff G x < 2 ^ 31 -> clear ua (isize t) lo hi ->
  (forall u y, In (u, y) V -> obj_addr G sym (rg m) y + isize u <= ua \/ ua + isize t <= obj_addr G sym (rg m) y) ->
  held G sym (rg m) (mm m) lo hi V env -> env x = field_value t w off (unit_of m) ->
  uses_in V a -> parse_beff (gc G) t w off x a = Ok n -> gen_bf G nul f void n st = Ok st' ->
  fresh_labels (out st ++ post) (cnt st) (cnt st') ->
  bvalue env t w off x a = Some v -> division_ok env t w x a ->
  exists m', steps sym (out st' ++ post) (length (out st), m) (length (out st'), m') /\
    field_set w off (unit_of m) v (unit_of m') /\
    (void = false -> ~ bad_bresult t w off a ->
     rg m' AX mod 2 ^ result_bits t = bresult env t w x a v mod 2 ^ result_bits t) /\
    (forall r, saved r -> rg m' r = rg m r) /\
    (forall b, b < lo \/ hi <= b -> b < ua \/ ua + isize t <= b -> mm m' b = mm m b).
Proof. exact bf_code. Qed.
Print Assumptions C64_assign.

(** *** Instances *)
(** A structure at -56(%rbp) whose storage unit lies at byte 4; the field holds the bits of
    [u]. *)
Definition G64 (o : bool) : genv :=
  mkgenv (cfg0 false o) false true 200 BP (loc (G55 o)) (fun x => if Nat.eqb x 5 then 4 else 0).
Definition mach64 (u : Z) : mach :=
  mkm (rg mach55) None (storen 4 (10000 - 52) u (mm mach55)).
Definition env64 (v : Z) (x : nat) : Z := if Nat.eqb x 5 then v else env55 x.
Definition after64 (o : bool) (t : ityp) (w off : Z) (a : beff) (void : bool) (u : Z) : option (Z * Z) :=
  match parse_beff (gc (G64 o)) t w off 5 a with
  | Ok n =>
      match gen_bf (G64 o) 9 40 void n st55 with
      | Ok st' =>
          match run sym55 (out st') None (mach64 u) with
          | Some (None, m') => Some (loadn 4 (10000 - 52) (mm m'), rg m' AX mod 2 ^ 32)
          | _ => None
          end
      | _ => None
      end
  | _ => None
  end.

(** int b : 5 at bit 3 holds 11; b *= s with s = 3 gives 33, kept as 1. *)
Example C64_ex : forall o, let G := G64 o in let m := mach64 0xFFFFFF5A in
  let a := BOp (ABin BMul) (EVar TInt 2) in
  ~ bad_field TInt 5 3 /\ addressable G sym55 5 /\ clear (10000 - 52) 4 (10000 - 200) (10000 - 200) /\
  (obj_addr G sym55 (rg m) 5 + moff G 5) mod 2 ^ 64 = 10000 - 52 /\
  (forall u y, In (u, y) V55 -> obj_addr G sym55 (rg m) y + isize u <= 10000 - 52 \/ 10000 - 52 + 4 <= obj_addr G sym55 (rg m) y) /\
  held G sym55 (rg m) (mm m) (10000 - 200) (10000 - 200) V55 (env64 11) /\
  env64 11 5 = field_value TInt 5 3 (loadn 4 (10000 - 52) (mm m)) /\
  uses_in V55 a /\
  (exists n st', parse_beff (gc G) TInt 5 3 5 a = Ok n /\ gen_bf G 9 40 false n st55 = Ok st' /\ peak st' = 200 /\
    fresh_labels (out st55 ++ post55) (cnt st55) (cnt st')) /\
  bvalue (env64 11) TInt 5 3 5 a = Some 33 /\ division_ok (env64 11) TInt 5 5 a /\
  after64 o TInt 5 3 a false 0xFFFFFF5A = Some (0xFFFFFF0A, 1).
Proof.
  intros o. cbv zeta. split; [|split; [|split; [|split; [|split; [|split; [|split; [|split; [|split; [|split; [|split]]]]]]]]]].
  - intros [X _]. discriminate X.
  - right. left. reflexivity.
  - split; [discriminate|right; discriminate].
  - reflexivity.
  - each; vm_compute; first [right; discriminate | left; discriminate].
  - each; (split; [ob|split; [intros raw X; discriminate X|ob]]).
  - vm_compute. reflexivity.
  - cbn [uses_in uses V55 In]. auto 8.
  - destruct o; eexists; eexists; (split; [vm_compute; reflexivity|split; [vm_compute; reflexivity|split; [reflexivity|]]]);
    (split; [repeat constructor; intros []|intros l [<-|[]]; left; reflexivity]).
  - vm_compute. reflexivity.
  - exact Logic.I.
  - destruct o; vm_compute; reflexivity.
Qed.

(** unsigned u : 5 at bit 3 holds 31: u++ yields 31 and stores 0; signed: -1. *)
Example C64_ex_post : forall o,
  bvalue (env64 31) TUInt 5 3 5 (BPost true) = Some 32 /\
  after64 o TUInt 5 3 (BPost true) false 0xFFFFFFFF = Some (0xFFFFFF07, 31) /\
  bvalue (env64 (-1)) TInt 5 3 5 (BPre false) = Some (-2) /\
  after64 o TInt 5 3 (BPre false) false 0xFFFFFFFF = Some (0xFFFFFFF7, 2 ^ 32 - 2).
Proof. destruct o; vm_compute; repeat split. Qed.

(** C64 does not hold for all divisions: the operands are converted as if the field had its
    declared type, although a field narrower than int has the type int. unsigned u : 3 holds
    3; u /= -1 must store the low bits of -3, which are 5, and stores 0. *)
Theorem C64_division_refuted : forall o, let a := BOp (ABin BDiv) (EUn UNeg (ENum TInt 1)) in
  exists v, bvalue (env64 3) TUInt 3 3 5 a = Some v /\
    env64 3 5 = field_value TUInt 3 3 (loadn 4 (10000 - 52) (mm (mach64 24))) /\
    ~ division_ok (env64 3) TUInt 3 5 a /\
    field_conv TUInt 3 v = 5 /\ ~ field_set 3 3 24 v 0 /\
    after64 o TUInt 3 3 a true 24 = Some (0, 0).
Proof.
  intros o. cbv zeta. eexists. split; [vm_compute; reflexivity|]. split; [vm_compute; reflexivity|]. split; [|split; [vm_compute; reflexivity|split]].
  - intros [[X _]|[_ X]]; [discriminate X|]. apply (X (-1) eq_refl). reflexivity.
  - intros [_ X]. discriminate (X 3 ltac:(lia)).
  - destruct o; vm_compute; reflexivity.
Qed.
Print Assumptions C64_division_refuted.
