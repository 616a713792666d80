(** Model of operations on atomic objects: parse.c 3191-3328 (atomic_op, to_assign, assign), 3511-3571 (new_add, new_sub) and
    codegen.c 1786-1827 (ND_CAS, ND_EXCH). *)
From Coq Require Import ZArith List Bool.
From Verif Require Import Base IntSpec IntModel X86 CgModel AtomSpec.
Import ListNotations.
Local Open Scope Z_scope.

(** Types of atomic objects. *)
Inductive aty := AInt (t : ityp) | APtr | AFlt | ADbl | ALdbl | AStruct (n : Z).
Definition asz (t : aty) : Z :=
  match t with AInt t => sz (mty t) | APtr | ADbl => 8 | AFlt => 4 | ALdbl => 16 | AStruct n => n end.
Definition is_flt (t : aty) : bool := match t with AFlt | ADbl => true | _ => false end.

(** ** Parsing *)
(** An assignment expression: a conditional expression of some type, or an assignment to an lvalue of some type. *)
Inductive aop := OAdd | OSub | OMul | ODiv | OMod | OAnd | OOr | OXor | OShl | OShr.
Inductive aexp := XLeaf (t : aty) | XAsg (op : option aop) (t : aty) (atomic : bool) (r : aexp).
(** node->ty after assign (parse.c:3272-3328): null ([None]) if add_type has not been called on the node.
    new_var (parse.c:464-471) reads the type of the variable it makes. *)
Fixpoint assign (e : aexp) : outcome (option aty) :=
  match e with
  | XLeaf t => Ok (Some t)                       (* 3274: add_type *)
  | XAsg op t atomic r =>
      do rt <- assign r;
      match op with
      | None => Ok None                          (* ND_ASSIGN, or ND_CHAIN after add_type of the right side *)
      | Some o =>
          (* type of binary->rhs: new_add and new_sub call add_type, and multiply by the size for pointers *)
          let rty := match o, t with
                     | OAdd, APtr | OSub, APtr => None
                     | OAdd, _ | OSub, _ => Some (match rt with Some u => u | None => AInt TInt end)
                     | _, _ => rt
                     end in
          if atomic then match rty with Some _ => Ok None | None => UB end   (* 3206 in atomic_op *)
          else Ok (Some t)
      end
  end.

(** ** The loop of atomic_op *)
(** The instructions, by what they do with the registers, the thread's own variables [old] and [new] and the object. *)
Inductive ai :=
| LoadObj | StoreOld          (* old = *addr *)
| LBegin
| Compute                     (* new = old op val, no access to shared memory *)
| LoadNew                     (* gen_expr(cas_new) *)
| MovDx                       (* mov %ax, %dx or movq/movd %xmm0, %dx *)
| MovOldAx                    (* mov (old), %ax *)
| Cmpxchg                     (* lock cmpxchg %dx, (addr) *)
| SeteCl | JeSkip
| StoreOldAx                  (* mov %ax, (old) *)
| LSkip
| MovzCl                      (* movzbl %cl, %eax *)
| JzBegin                     (* test %al, %al; je begin *)
| LoadRes (old : bool).
(** parse.c:3191-3255 with codegen.c:1786-1817 and 2107-2117. *)
Definition atomic_op (t : aty) (return_old : bool) : outcome (list ai) :=
  match t with
  | ALdbl | AStruct _ => Abort                   (* 1799-1800 *)
  | _ =>
      Ok ([LoadObj; StoreOld; LBegin; Compute; LoadNew; MovDx; MovOldAx; Cmpxchg; SeteCl; JeSkip; StoreOldAx; LSkip; MovzCl; JzBegin;
           LoadRes return_old])
  end.

(** ** Threads *)
Record thr := mkt { rest : list ai; ax : Z; cx : Z; dx : Z; xm : Z; zf : bool; v_old : Z; v_new : Z }.
Section Thr.
Variable t : aty.
Variable code : list ai.
Let w := 2 ^ (8 * asz t).
(** Writing part of a register. *)
Definition part (r v : Z) : Z := if asz t <? 4 then r / w * w + v mod w else v mod w.
Definition with_acc (s : thr) (v : Z) : thr :=
  if is_flt t then mkt (rest s) (ax s) (cx s) (dx s) v (zf s) (v_old s) (v_new s)
  else mkt (rest s) v (cx s) (dx s) (xm s) (zf s) (v_old s) (v_new s).
Definition acc (s : thr) : Z := if is_flt t then xm s else ax s.
(** Loading from a variable of the type: extended to the register in some way. *)
Definition ext (v : Z) : Z :=
  match t with AInt i => if isigned i then (sgn (8 * asz t) v) mod 2 ^ 32 + (if asz t =? 8 then v / 2 ^ 32 * 2 ^ 32 else 0) else v | _ => v end.
Fixpoint after (i : ai) (l : list ai) : list ai :=
  match l with
  | [] => []
  | LBegin :: r => match i with LBegin => r | _ => after i r end
  | LSkip :: r => match i with LSkip => r | _ => after i r end
  | _ :: r => after i r
  end.
Definition next (s : thr) (r : list ai) : thr := mkt r (ax s) (cx s) (dx s) (xm s) (zf s) (v_old s) (v_new s).
(** One instruction: new thread state, new contents of the object, and the change made, if any. [f] is the operation. *)
Definition tstep (f : Z -> Z) (s : thr) (obj : Z) : option (thr * Z * option (Z * Z)) :=
  match rest s with
  | [] => None
  | i :: r =>
      let s := next s r in
      match i with
      | LoadObj => Some (with_acc s (ext obj), obj, None)
      | StoreOld => Some (mkt r (ax s) (cx s) (dx s) (xm s) (zf s) (acc s mod w) (v_new s), obj, None)
      | LBegin | LSkip => Some (s, obj, None)
      | Compute => Some (mkt r (ax s) (cx s) (dx s) (xm s) (zf s) (v_old s) (f (v_old s)), obj, None)
      | LoadNew => Some (with_acc s (ext (v_new s)), obj, None)
      | MovDx => Some (mkt r (ax s) (cx s) (part (dx s) (acc s)) (xm s) (zf s) (v_old s) (v_new s), obj, None)
      | MovOldAx => Some (mkt r (part (ax s) (v_old s)) (cx s) (dx s) (xm s) (zf s) (v_old s) (v_new s), obj, None)
      | Cmpxchg =>                                (* no register is wider than 8 bytes *)
          if 8 <? asz t then None
          else if ax s mod w =? obj
          then Some (mkt r (ax s) (cx s) (dx s) (xm s) true (v_old s) (v_new s), dx s mod w, Some (obj, dx s mod w))
          else Some (mkt r (part (ax s) obj) (cx s) (dx s) (xm s) false (v_old s) (v_new s), obj, None)
      | SeteCl => Some (mkt r (ax s) (cx s / 256 * 256 + (if zf s then 1 else 0)) (dx s) (xm s) (zf s) (v_old s) (v_new s), obj, None)
      | JeSkip => Some (next s (if zf s then after LSkip code else r), obj, None)
      | StoreOldAx => Some (mkt r (ax s) (cx s) (dx s) (xm s) (zf s) (ax s mod w) (v_new s), obj, None)
      | MovzCl => Some (mkt r (cx s mod 256) (cx s) (dx s) (xm s) (zf s) (v_old s) (v_new s), obj, None)
      | JzBegin => Some (next s (if ax s mod 256 =? 0 then after LBegin code else r), obj, None)
      | LoadRes o => Some (with_acc s (ext (if o then v_old s else v_new s)), obj, None)
      end
  end.
End Thr.

(** All threads, the object, and the history of its changes. Threads take turns in any order, and the object may be changed by others. *)
Record gst := mkg { thrs : nat -> thr; obj : Z; log : list change }.
Inductive gstep (t : aty) (code : list ai) (f : nat -> Z -> Z) : option nat -> gst -> gst -> Prop :=
| g_thr i g s' v' c :
    tstep t code (f i) (thrs g i) (obj g) = Some (s', v', c) ->
    gstep t code f (Some i) g
      (mkg (fun j => if Nat.eqb j i then s' else thrs g j) v' (match c with Some (a, b) => (Some i, a, b) :: log g | None => log g end))
| g_env g v' :
    0 <= v' < 2 ^ (8 * asz t) -> gstep t code f None g (mkg (thrs g) v' ((None, obj g, v') :: log g)).
Inductive gsteps (t : aty) (code : list ai) (f : nat -> Z -> Z) : list (option nat) -> gst -> gst -> Prop :=
| gs_refl g : gsteps t code f [] g g
| gs_step w l g g' g'' : gstep t code f w g g' -> gsteps t code f l g' g'' -> gsteps t code f (w :: l) g g''.

(** ** Exchange and simple assignment *)
(** codegen.c:1818-1827, from the point where the address is in %rax; the temporary is kept in %rdi. [tr] is the type of the
    value, a variable at [b + o]; loading a floating value ([None]) does not touch the integer registers. *)
Definition exch (tobj : ityp) (tr : option ityp) (b : base) (o : Z) : outcome (list instr) :=
  do s <- size_of (sz (mty tobj));
  do l <- (match tr with Some u => load3 (mty u) b o | None => Ok [] end);
  Ok ([Mov None (R S8 AX) (R S8 DI)] ++ l ++ [Xchg (R s AX) (M (BReg DI) 0)]).
(** parse.c:3276-3287, after the value has been stored in its variable: exchange, then the variable again, whose type is that of
    the value. *)
Definition atomic_assign (tobj tr : ityp) (b : base) (o : Z) : outcome (list instr) :=
  do c <- exch tobj (Some tr) b o;
  do l <- load3 (mty tr) b o;
  Ok (c ++ l).
