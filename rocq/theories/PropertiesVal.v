(** C50: the values of x++, x--, and of the other assignments. *)
From Coq Require Import ZArith List Bool Lia.
From Verif Require Import Base IntSpec IntModel IntMain X86 CgModel CgSpec
  StmtSpec StmtModel StmtPlace ValSpec ValModel ValMain PropertiesInt PropertiesStmt.
Import ListNotations.
Local Open Scope Z_scope.

(** C50. For every integer type and every value [v] of the object for which C defines x++
    (x--), the code leaves the old value in %rax and the next (previous) value in the object,
    and changes no other memory outside the area of temporaries and no preserved register. *)
Theorem C50_postfix :
  forall (G : genv) (sym : nat -> Z) (nul f : nat),
  (forall a b, same (gc G) a b = true -> a = b) -> saved (lptr G) ->
  loc G nul = VHere -> known (gc G) nul = None ->
  forall (inc : bool) (t : ityp) (x : nat) (n : enode) (st st' : gst) (v : Z) (m : mach) (post : list instr),
  0 <= lvar_sz G <= peak st -> 0 <= rg m (lptr G) < 2 ^ 64 -> peak st' <= rg m (lptr G) ->
  known (gc G) x = None -> in_range t v -> no_overflow inc t v ->
  stored G sym (rg m) (mm m) (rg m (lptr G) - peak st') (rg m (lptr G) - lvar_sz G) (fun _ => v) (EVar t x) ->
  parse_eff (gc G) (XPost inc t x) = Ok n -> gen_val G nul f n st = Ok st' ->
  fresh_labels (out st ++ post) (cnt st) (cnt st') ->
  exists m', steps sym (out st' ++ post) (length (out st), m) (length (out st'), m') /\
    rg m' AX mod 2 ^ result_bits t = v mod 2 ^ result_bits t /\
    loadn (Z.to_nat (isize t)) (obj_addr G sym (rg m) x) (mm m') = stepped inc t v mod 2 ^ (8 * isize t) /\
    (forall r, saved r -> rg m' r = rg m r) /\
    (forall a, a < rg m (lptr G) - peak st' \/ rg m (lptr G) - lvar_sz G <= a ->
       a < obj_addr G sym (rg m) x \/ obj_addr G sym (rg m) x + isize t <= a -> mm m' a = mm m a).
Proof. exact post_code. Qed.
Print Assumptions C50_postfix.

(** C50. The same for every assignment, compound assignment, prefix operator and comma
    expression whose value is used: %rax holds the value C gives to the expression. *)
Theorem C50_value :
  forall (G : genv) (sym : nat -> Z) (V : list (ityp * nat)) (nul : nat),
  (forall a b, same (gc G) a b = true -> a = b) -> saved (lptr G) ->
  loc G nul = VHere -> known (gc G) nul = None ->
  forall (f : nat) (a : eff) (n : enode) (st st' : gst) (env : nat -> Z) (m : mach) (post : list instr),
  0 <= lvar_sz G <= peak st -> 0 <= rg m (lptr G) < 2 ^ 64 -> peak st' <= rg m (lptr G) ->
  uses_eff V (fun x => known (gc G) x = None) a ->
  separate G sym (rg m) V ->
  held G sym (rg m) (mm m) (rg m (lptr G) - peak st') (rg m (lptr G) - lvar_sz G) V env ->
  parse_eff (gc G) a = Ok n -> gen_val G nul f n st = Ok st' ->
  fresh_labels (out st ++ post) (cnt st) (cnt st') ->
  forall v env', evalue env a = Some (v, env') ->
  exists m', steps sym (out st' ++ post) (length (out st), m) (length (out st'), m') /\
    rg m' AX mod 2 ^ result_bits (etype a) = v mod 2 ^ result_bits (etype a) /\
    held G sym (rg m) (mm m') (rg m (lptr G) - peak st') (rg m (lptr G) - lvar_sz G) V env' /\
    (forall r, saved r -> rg m' r = rg m r) /\
    (forall a, a < rg m (lptr G) - peak st' \/ rg m (lptr G) - lvar_sz G <= a ->
       ~ of_variable G sym (rg m) V a -> mm m' a = mm m a).
Proof. exact val_code. Qed.
Print Assumptions C50_value.

(** The value C gives to x++ and x-- is the old one, and the object gets the next one. *)
Theorem C50_spec : forall (env : nat -> Z) (inc : bool) (t : ityp) (x : nat),
  in_range t (env x) -> no_overflow inc t (env x) ->
  evalue env (XPost inc t x) = Some (env x, assign env x (stepped inc t (env x))).
Proof. exact post_value. Qed.
Print Assumptions C50_spec.

(** *** Instances: char 127 ++, unsigned 0 --, _Bool 0 --, with and without optimisation, for
    a local variable; and (g ^= s, s--) with a global. *)
Definition mach50 (v : Z) : mach :=
  mkm (fun r => match r with BP => 10000 | _ => 77 end) None (storen 8 (10000 - 16) v (fun _ => 0)).
Definition fits50 (o inc : bool) (t : ityp) (v : Z) : Prop :=
  match parse_eff (gc (G55 o)) (XPost inc t 0) with
  | Ok n =>
      match gen_val (G55 o) 9 40 n st55 with
      | Ok st' =>
          match run sym55 (out st') None (mach50 v) with
          | Some (None, m') =>
              rg m' AX mod 2 ^ result_bits t = v mod 2 ^ result_bits t /\
              loadn (Z.to_nat (isize t)) (10000 - 16) (mm m') = stepped inc t v mod 2 ^ (8 * isize t)
          | _ => False
          end
      | _ => False
      end
  | _ => False
  end.
Example C50_ex_char : forall o, fits50 o true TChar 127 /\ stepped true TChar 127 = -128.
Proof. destruct o; vm_compute; repeat split. Qed.
Example C50_ex_unsigned : forall o, fits50 o false TUInt 0 /\ stepped false TUInt 0 = 2 ^ 32 - 1.
Proof. destruct o; vm_compute; repeat split. Qed.
Example C50_ex_bool : forall o, fits50 o false TBool 0 /\ stepped false TBool 0 = 1.
Proof. destruct o; vm_compute; repeat split. Qed.

Definition a50 : eff := XSeq (XOp (ABin BXor) TUChar 4 (EVar TInt 2)) (XPost false TInt 2).
Example C50_ex : forall o, let G := G55 o in
  uses_eff V55 (fun x => known (gc G) x = None) a50 /\
  separate G sym55 (rg mach55) V55 /\
  held G sym55 (rg mach55) (mm mach55) (10000 - 200) (10000 - 200) V55 env55 /\
  (exists n st', parse_eff (gc G) a50 = Ok n /\ gen_val G 9 40 n st55 = Ok st' /\ peak st' = 200 /\
    fresh_labels (out st55 ++ post55) (cnt st55) (cnt st')) /\
  (exists env', evalue env55 a50 = Some (3, env') /\ map env' [2; 4]%nat = [2; 203]).
Proof.
  intros o. destruct (C55_ex o) as [_ [SEP [HD _]]]. cbv zeta. split; [|split; [exact SEP|split; [exact HD|split]]].
  - unfold a50. cbn [uses_eff uses V55 In]. destruct o; repeat split; auto 8.
  - destruct o; eexists; eexists; (split; [vm_compute; reflexivity|split; [vm_compute; reflexivity|split; [reflexivity|]]]);
    (split; [repeat constructor; intros []|intros l [<-|[]]; left; reflexivity]).
  - eexists. split; reflexivity.
Qed.
