(** What an initializer initialises (C 6.7.9): a cursor moves over the subobjects of the object
    that a pair of braces initialises. *)
From Coq Require Import String ZArith List Bool.
Import ListNotations.
Local Open Scope string_scope.
Local Open Scope list_scope.

(** Types of objects: scalars (integer or not), arrays, structures or unions ([uni]). Unnamed
    members are anonymous structures or unions. *)
Inductive ity :=
| IScal (int : bool)
| IArr (n : nat) (t : ity)
| IStr (uni : bool) (ms : list (option string * ity)).
(** A subobject: the indices of elements or members that lead to it. *)
Definition path := list nat.
Definition kid (T : ity) (i : nat) : option ity :=
  match T with
  | IScal _ => None
  | IArr n t => if Nat.ltb i n then Some t else None
  | IStr _ ms => match nth_error ms i with Some (_, t) => Some t | None => None end
  end.
Fixpoint sub (T : ity) (p : path) : option ity :=
  match p with
  | [] => Some T
  | i :: q => match kid T i with Some U => sub U q | None => None end
  end.
Definition is_union (T : ity) : bool := match T with IStr u _ => u | _ => false end.
Definition is_scalar (T : ity) : bool := match T with IScal _ => true | _ => false end.
(** Arrays that string literals initialise. *)
Definition chars (T : ity) : bool := match T with IArr _ (IScal b) => b | _ => false end.
(** Objects have parts, and arrays are no longer than an [int] counts. *)
Fixpoint whole (T : ity) : Prop :=
  match T with
  | IScal _ => True
  | IArr n t => n <> 0 /\ (Z.of_nat n < 2 ^ 31)%Z /\ whole t
  | IStr _ ms => ms <> [] /\ (fix all (ms : list (option string * ity)) : Prop :=
      match ms with [] => True | (_, t) :: r => whole t /\ all r end) ms
  end.

(** The subobject after [p]: the next element or member, of the object itself or of the smallest
    one around it that has one left; a union has one only. *)
Fixpoint nxt (T : ity) (p : path) : option path :=
  match p with
  | [] => None
  | i :: q =>
      match kid T i with
      | None => None
      | Some U =>
          match nxt U q with
          | Some q' => Some (i :: q')
          | None =>
              if is_union T then None
              else match kid T (S i) with Some _ => Some [S i] | None => None end
          end
      end
  end.

(** The member a name designates, also inside anonymous members. *)
Fixpoint lookup (s : string) (T : ity) : option path :=
  match T with
  | IStr _ ms =>
      (fix go (k : nat) (ms : list (option string * ity)) : option path :=
         match ms with
         | [] => None
         | (Some x, _) :: r => if String.eqb x s then Some [k] else go (S k) r
         | (None, t) :: r => match lookup s t with Some q => Some (k :: q) | None => go (S k) r end
         end) 0 ms
  | _ => None
  end.
Inductive desig := DIdx (i : Z) | DMem (s : string).
Fixpoint resolve (T : ity) (ds : list desig) : option path :=
  match ds with
  | [] => Some []
  | d :: ds =>
      match match d with
            | DIdx i => match T with
                        | IArr n _ => if ((0 <=? i) && (i <? Z.of_nat n))%Z then Some [Z.to_nat i] else None
                        | _ => None
                        end
            | DMem s => lookup s T
            end with
      | None => None
      | Some p =>
          match sub T p with
          | None => None
          | Some U => match resolve U ds with Some q => Some (p ++ q) | None => None end
          end
      end
  end.

Section Init.
(** Expressions; whether one has a type compatible with a structure or union type; and the
    elements of a string literal. *)
Variable E : Type.
Variable compat : E -> ity -> bool.
Variable str : E -> option (list Z).
(** [ext]: with the initializers of C that the parser does not take: a comma after the one
    initializer in the braces of a scalar or of a string, empty braces for a scalar (C23), and
    an expression that only begins with a string literal (IX) where a character array could be
    initialised by a literal. *)
Variable ext : bool.

Inductive init :=
| IE (e : E)
| IX (e : E) (s : list Z)
| IB (l : list (list desig * init)) (comma : bool).

(** Values: of an expression, or an element of a string literal. *)
Inductive src := SE (e : E) | SC (z : Z).
(** What happens to subobjects, in order: all of it is zero, or it has a value. *)
Inductive ev := Clear (p : path) | Put (p : path) (s : src).
Definition pre (p : path) (v : ev) : ev :=
  match v with Clear q => Clear (p ++ q) | Put q s => Put (p ++ q) s end.

(** Where in an object of type [T] the value of an expression goes: 6.7.9 paragraphs 13, 14, 20.
    [sl]: the elements of a string literal; [ld]: begins with a literal only. *)
Fixpoint dive (e : E) (sl : option (list Z)) (ld : bool) (T : ity) : option (list ev * path) :=
  let first t := match dive e sl ld t with Some (v, q) => Some (map (pre [0]) v, 0 :: q) | None => None end in
  match T with
  | IScal _ => Some ([Put [] (SE e)], [])
  | IArr n t =>
      if chars T then
        match sl with
        | Some s => Some (Clear [] :: map (fun '(k, z) => Put [k] (SC z)) (combine (seq 0 n) s), [])
        | None => if ld && negb ext then None else first t
        end
      else first t
  | IStr _ ms =>
      if compat e T then Some ([Put [] (SE e)], [])
      else match ms with (_, t) :: _ => first t | [] => None end
  end.

(** The initializers of a list, for an object of type [T], from the subobject [cur] on. *)
Section Run.
Variable fill : init -> ity -> option (list ev * path).
Fixpoint run (T : ity) (cur : option path) (l : list (list desig * init)) : option (list ev) :=
  match l with
  | [] => Some []
  | (ds, i) :: l =>
      match match ds with [] => cur | _ => resolve T ds end with
      | None => None
      | Some p =>
          match sub T p with
          | None => None
          | Some U =>
              match fill i U with
              | None => None
              | Some (v, q) =>
                  match run T (nxt T (p ++ q)) l with
                  | None => None
                  | Some w => Some (map (pre p) v ++ w)
                  end
              end
          end
      end
  end.
End Run.

(** One initializer, for an object of type [T]: the values, and the subobject last initialised.
    Braces begin with zeros everywhere (paragraphs 19 and 21). *)
Fixpoint fill (i : init) (T : ity) {struct i} : option (list ev * path) :=
  match i with
  | IE e => dive e (str e) false T
  | IX e s => dive e None true T
  | IB l comma =>
      if is_scalar T then
        match l with
        | [([], i)] => if comma && negb ext then None else fill i T
        | [] => if ext then Some ([Clear []], []) else None
        | _ => None
        end
      else
        match match l with
              | [([], IE e)] => if chars T then str e else None
              | _ => None
              end, l with
        | Some s, [([], i)] => if comma && negb ext then None else fill i T
        | _, _ => match run fill T (Some [0]) l with Some v => Some (Clear [] :: v, []) | None => None end
        end
  end.

(** * Values of scalars at the end *)
Inductive value := VZero | VSrc (s : src) (p : path) | VOther.
Fixpoint below (p q : path) : option path :=
  match p, q with
  | [], _ => Some q
  | i :: p, j :: q => if Nat.eqb i j then below p q else None
  | _, [] => None
  end.
Definition place (v : ev) : path := match v with Clear p | Put p _ => p end.
(** [q] leads to another member of a union than [p]. *)
Fixpoint union_split (T : ity) (p q : path) : bool :=
  match p, q with
  | i :: p, j :: q =>
      if Nat.eqb i j then match kid T i with Some U => union_split U p q | None => false end
      else is_union T
  | _, _ => false
  end.
(** The last event that concerns [x] counts. The value of a part of a structure is a part of the
    value of the structure. A value for another member of a union leaves something else
    ([VOther]). *)
Definition concern (T : ity) (e : ev) (x : path) : option value :=
  match below (place e) x with
  | Some q => Some (match e with Clear _ => VZero | Put _ s => VSrc s q end)
  | None => if union_split T (place e) x then Some VOther else None
  end.
Definition final (T : ity) (l : list ev) (x : path) : value :=
  fold_left (fun v e => match concern T e x with Some w => w | None => v end) l VZero.

(** The later event [w] concerns other subobjects than [v], or a part of what was set to zero,
    or it gives a value to all of what [v] concerns. *)
Definition apart (v w : ev) : Prop :=
  (below (place v) (place w) = None /\ below (place w) (place v) = None) \/
  (exists p, v = Clear p /\ below p (place w) <> None) \/
  (exists p s, w = Put p s /\ below p (place v) <> None).
Definition tidy (l : list ev) : Prop :=
  forall a v b w c, l = a ++ v :: b ++ w :: c -> apart v w.

(** The length of an array of unknown bound (paragraph 25): one more than the largest index that
    has an initializer. *)
Definition reach (l : list ev) : nat :=
  fold_left (fun m e => match place e with [] => m | i :: _ => Nat.max m (S i) end) l 0.

(** * Tokens *)
Inductive itok :=
| TE (e : E) | TX (e : E) (s : list Z) | LB | RB | COMMA | EQ | IDX (i : Z) | RNG (i j : Z) | DOT (s : string) | JUNK.
Definition dtok (d : desig) : itok := match d with DIdx i => IDX i | DMem s => DOT s end.
Definition dtoks (ds : list desig) : list itok :=
  match ds with [] => [] | _ => map dtok ds ++ [EQ] end.
Section Text.
Variable text : init -> list itok.
(** The rest of a list. *)
Fixpoint more (l : list (list desig * init)) (comma : bool) : list itok :=
  match l with
  | [] => if comma then [COMMA] else []
  | (ds, i) :: l => COMMA :: dtoks ds ++ text i ++ more l comma
  end.
End Text.
Fixpoint text (i : init) : list itok :=
  match i with
  | IE e => [TE e]
  | IX e s => [TX e s]
  | IB l comma => LB :: match l with [] => [] | (ds, i) :: l => dtoks ds ++ text i ++ more text l comma end ++ [RB]
  end.
End Init.
Arguments IE {E} e.
Arguments IX {E} e s.
Arguments IB {E} l comma.
Arguments SE {E} e.
Arguments SC {E} z.
Arguments Clear {E} p.
Arguments Put {E} p s.
Arguments VZero {E}.
Arguments VSrc {E} s p.
Arguments VOther {E}.
Arguments TE {E} e.
Arguments TX {E} e s.
Arguments LB {E}.
Arguments RB {E}.
Arguments COMMA {E}.
Arguments EQ {E}.
Arguments IDX {E} i.
Arguments RNG {E} i j.
Arguments DOT {E} s.
Arguments JUNK {E}.
Arguments pre {E} p v.
Arguments place {E} v.
Arguments concern {E} T e x.
Arguments final {E} T l x.
Arguments apart {E} v w.
Arguments tidy {E} l.
Arguments reach {E} l.
Arguments dtok {E} d.
Arguments dtoks {E} ds.
Arguments more {E} text l comma.
Arguments text {E} i.
Arguments dive {E} compat ext e sl ld T.
Arguments run {E} fill T cur l.
Arguments fill {E} compat str ext i T.
