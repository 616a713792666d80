(** C43: variable arguments. *)
From Coq Require Import ZArith List Bool Lia.
From Verif Require Import Base X86 Sse MemSpec MemModel CallSpec CallModel VaModel VaSpec VaFinal PropertiesCall.
Import ListNotations.
Local Open Scope Z_scope.

(** A function with the parameters [named] is called with the arguments [named ++ anon]. The caller loads the registers
    and %al (m1); the callee is entered with them and the rest of the arguments above its frame (m2), and saves
    its registers (m3). Later (m4), with the save area and the stack arguments intact, va_start initialises
    a va_list at [ap] (m5). From then on va_arg with the types of [anon] delivers their bytes one after the other, however they
    are distributed over registers and stack. [lp] is the register for locals, [gp] is 1 if the first register is the
    address of the result, [dsts] are the objects for copies of structures. *)
Theorem C43_va_arg : forall sym lp named anon dsts gp,
  map l_ty dsts = map l_ty anon -> (gp <= 1)%nat -> Forall argument (map l_ty (named ++ anon)) -> Forall loc_ok (named ++ anon) -> Forall loc_ok dsts ->
  stack_bytes (map l_ty (named ++ anon)) <= INT_MAX - 16 -> lp = BP \/ lp = BX ->
  exists stk1 st1 stk2 st2 c1 c2,
    calling_convention (map l_ty (named ++ anon)) (Z.of_nat gp) 0 = Ok (stk1, st1) /\
    calling_convention (map l_ty named) (Z.of_nat gp) 0 = Ok (stk2, st2) /\
    gen_reg_args (combine (combine (map l_ty (named ++ anon)) stk1) (map l_place (named ++ anon))) gp 0 = Ok c1 /\
    va_start st2 lp = Ok c2 /\
    forall m, Forall (located sym (im m)) (named ++ anon) ->
    exists m1, xrun sym (concat c1 ++ set_al (Func true) (cc_fp st1)) m = Some m1 /\ mm (im m1) = mm (im m) /\
      forall m2, (forall r, In r int_regs -> rg (im m2) r = rg (im m1) r) -> (forall x, (x < 8)%nat -> xr m2 x = xr m1 x) ->
        rg (im m2) AX mod 256 = rg (im m1) AX mod 256 ->
        176 <= rg (im m2) lp <= rg (im m2) BP -> rg (im m2) BP + 16 + cc_stack st1 < 2 ^ 64 ->
        rg (im m2) lp mod 16 = 0 -> (rg (im m2) BP + 16) mod cc_align st1 = 0 ->
        (forall k s o, nth_error (named ++ anon) k = Some s -> nth_error stk1 k = Some (Some o) ->
           forall j, 0 <= j < asize (l_ty s) -> byte_eq (mm (im m2) (rg (im m2) BP + 16 + o + j)) (mm (im m) (l_addr s + j))) ->
      exists m3, xjrun sym (save_regs st2 lp) None m2 = Some (None, m3) /\ rg (im m3) = rg (im m2) /\ xr m3 = xr m2 /\
        (forall x, ~ within x (rg (im m2) lp - 176) 176 -> mm (im m3) x = mm (im m2) x) /\
        forall m4 ap, let e := mkv ap (rg (im m2) lp - 176) (rg (im m2) BP + 16) (cc_stack st1) in
          env_ok e -> rg (im m4) AX = ap -> rg (im m4) BP = rg (im m2) BP -> rg (im m4) lp = rg (im m2) lp ->
          (forall x, within x (v_area e) 176 \/ within x (v_stk e) (v_len e) -> mm (im m4) x = mm (im m3) x) ->
        exists m5, xjrun sym c2 None m4 = Some (None, m5) /\ (forall x, ~ within x ap 24 -> mm (im m5) x = mm (im m4) x) /\
          (forall q, q <> DX -> rg (im m5) q = rg (im m4) q) /\
          delivers sym e (combine dsts (map (fun s j => mm (im m) (l_addr s + j)) anon)) m5.
Proof. exact va_ok. Qed.
Print Assumptions C43_va_arg.

(** f(int, double, struct {float a[2]; int i;}, long double, long) *)
Definition ex_named := [mkloc ex_int (BReg SP) 100 1100].
Definition ex_anon := [mkloc ADouble (BReg SP) 200 1200; mkloc ex_mix (BReg SP) 300 1300; mkloc ALdouble (BReg SP) 400 1400; mkloc (AGp false 8) (BReg SP) 500 1500].
Definition ex_vdst := [mkloc ADouble (BReg BP) (-208) 592; mkloc ex_mix (BReg BP) (-232) 568; mkloc ALdouble (BReg BP) (-256) 544; mkloc (AGp false 8) (BReg BP) (-272) 528].
Definition with_ax (a : Z) (m : xmach) : xmach := mkx (setr (im m) AX a) (xr m).
Definition with_mem (f : Z -> Z) (m : xmach) : xmach := mkx (setm (im m) f) (xr m).
(** The long double on the stack, from 816 on. *)
Definition ex_stk (x : Z) : Z := if (816 <=? x) && (x <? 832) then (1400 + (x - 816)) mod 256 else x mod 256.
(** Run va_arg; the address. *)
Definition va_get (l : loc) (m : xmach) : option (xmach * Z) :=
  match va_arg (l_ty l) (l_base l) (l_ofs l) with
  | Ok c => match xjrun (fun _ => 0) c None (with_ax 304 m) with Some (None, m') => Some (m', rg (im m') AX) | _ => None end
  | _ => None
  end.
Fixpoint va_gets (l : list loc) (m : xmach) : option (list (list Z)) :=
  match l with
  | [] => Some []
  | d :: r => match va_get d m with
              | Some (m', a) => match va_gets r m' with
                                | Some v => Some (map (fun j => mm (im m') (a + Z.of_nat j)) (seq 0 (Z.to_nat (asize (l_ty d)))) :: v) | None => None end
              | None => None
              end
  end.
(** The whole way, for a function expression of type [f]. *)
Definition va_way (f : fty) (named anon dsts : list loc) (m : xmach) (stk : Z -> Z) : option (list (list Z)) :=
  match calling_convention (map l_ty (named ++ anon)) 0 0, calling_convention (map l_ty named) 0 0 with
  | Ok (stk1, st1), Ok (_, st2) =>
      match gen_reg_args (combine (combine (map l_ty (named ++ anon)) stk1) (map l_place (named ++ anon))) 0 0, va_start st2 BP with
      | Ok c1, Ok c2 =>
          match xrun (fun _ => 0) (concat c1 ++ set_al f (cc_fp st1)) m with
          | Some m1 =>
              match xjrun (fun _ => 0) (save_regs st2 BP) None (with_mem stk m1) with
              | Some (None, m3) =>
                  match xjrun (fun _ => 0) c2 None (with_ax 304 m3) with
                  | Some (None, m5) => va_gets dsts m5
                  | _ => None
                  end
              | _ => None
              end
          | None => None
          end
      | _, _ => None
      end
  | _, _ => None
  end.
Definition bytes_of (l : loc) : list Z := map (fun j => (l_addr l + Z.of_nat j) mod 256) (seq 0 (Z.to_nat (asize (l_ty l)))).

Example C43_example :
  map l_ty ex_vdst = map l_ty ex_anon /\ Forall argument (map l_ty (ex_named ++ ex_anon)) /\ Forall loc_ok (ex_named ++ ex_anon) /\ Forall loc_ok ex_vdst /\
  (forall f, Forall (located (fun _ => 0) (im (ex_m f))) (ex_named ++ ex_anon)) /\ env_ok (mkv 304 624 816 16) /\
  Forall (clear (mkv 304 624 816 16)) ex_vdst /\
  va_way (Func true) ex_named ex_anon ex_vdst (ex_m (fun x => x mod 256)) ex_stk = Some (map bytes_of ex_anon).
Proof.
  split; [reflexivity|]. split.
  { cbn [map ex_named ex_anon app l_ty]. apply Forall_cons; [repeat split; cbn; lia|]. apply Forall_cons; [repeat split; cbn; lia|].
    apply Forall_cons; [split; [apply ex_mix_nat|cbn; lia]|]. apply Forall_cons; [repeat split; cbn; lia|]. apply Forall_cons; [|apply Forall_nil]. repeat split; cbn; lia. }
  split. { repeat (apply Forall_cons || apply Forall_nil); repeat split; cbn; try lia; intuition discriminate. }
  split. { repeat (apply Forall_cons || apply Forall_nil); repeat split; cbn; try lia; intuition discriminate. }
  split. { intros f. repeat constructor; cbn; lia. }
  split. { unfold env_ok, apart. cbn [v_ap v_area v_stk v_len]. lia. }
  split. { repeat (apply Forall_cons || apply Forall_nil); unfold clear, apart; cbn; lia. }
  vm_compute. reflexivity.
Qed.

(** The other direction: with a pointer as the function expression %al is not set, whatever the type it points to. If it
    happens to be 0 the callee does not save the floating registers and va_arg does not deliver the double. *)
Theorem C43_pointer_refuted : (forall f n, set_al (PtrTo f) n = []) /\
  let named := [mkloc (AGp true 8) (BReg SP) 100 1100] in let anon := [mkloc ADouble (BReg SP) 200 1200] in
  let dsts := [mkloc ADouble (BReg BP) (-208) 592] in let m := with_ax 0 (ex_m (fun x => x mod 256)) in
  va_way (Func true) named anon dsts m (mm (im m)) = Some (map bytes_of anon) /\
  exists v, va_way (PtrTo (Func true)) named anon dsts m (mm (im m)) = Some v /\ v <> map bytes_of anon.
Proof.
  split; [reflexivity|]. cbv zeta. split; [vm_compute; reflexivity|]. eexists. split; [vm_compute; reflexivity|]. vm_compute. discriminate.
Qed.
Print Assumptions C43_pointer_refuted.
