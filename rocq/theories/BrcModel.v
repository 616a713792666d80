(** parse.c: initializers. Tokens are those of BrcSpec.v: an expression that assign() parses is
    one token ([TE], or [TX] when its first token is a string literal, possibly in parentheses,
    without the expression being one); a designator "[" constant "]", "[" constant "..." constant
    "]" or "." identifier is one token. *)
From Coq Require Import String ZArith List Bool.
From Verif Require Import Base BrcSpec.
Import ListNotations.
Local Open Scope string_scope.
Local Open Scope list_scope.

Section Model.
Variable E : Type.
Variable compat : E -> ity -> bool.
Variable str : E -> option (list Z).
Notation tok := (itok E).
Notation src := (src E).

Inductive res (A : Type) :=
| ROk (a : A)
| RErr                (* error_tok() *)
| RUB                 (* undefined behaviour of the compiler *)
| RFuel.
Arguments ROk {A} a.
Arguments RErr {A}.
Arguments RUB {A}.
Arguments RFuel {A}.
Definition bind {A B} (r : res A) (f : A -> res B) : res B :=
  match r with ROk a => f a | RErr => RErr | RUB => RUB | RFuel => RFuel end.

(** struct Initializer (parse.c 57-76): kind, the union of tok, expr and initmem, and mem_arr with
    mem_cnt. INIT_TOK is not told from INIT_EXPR: a number is kept as a token until it is used.
    INIT_FLEXIBLE only exists in [unknown] below. *)
Inductive kind := KNone | KList | KExpr.
Inductive slot := SNone | SExp (s : src) | SMem (i : nat).
Inductive ini := Ini (k : kind) (s : slot) (ms : list ini).
Definition kindof (n : ini) : kind := match n with Ini k _ _ => k end.
Definition slotof (n : ini) : slot := match n with Ini _ s _ => s end.
Definition arr (n : ini) : list ini := match n with Ini _ _ ms => ms end.
Fixpoint upd {A} (l : list A) (i : nat) (a : A) : list A :=
  match l, i with
  | [], _ => []
  | _ :: r, O => a :: r
  | x :: r, Datatypes.S i => x :: upd r i a
  end.
Definition with_arr (n : ini) (ms : list ini) : ini := match n with Ini k s _ => Ini k s ms end.
Definition with_kind (k : kind) (n : ini) : ini := match n with Ini _ s ms => Ini k s ms end.
Definition with_slot (s : slot) (n : ini) : ini := match n with Ini k _ ms => Ini k s ms end.
(** init->kind = INIT_EXPR; init->expr = ... *)
Definition set (s : src) (n : ini) : ini := Ini KExpr (SExp s) (arr n).

(** new_initializer() (parse.c 425-462), for types without flexible array members. *)
Fixpoint new (T : ity) : ini :=
  match T with
  | IScal _ => Ini KNone SNone []
  | IArr n t => Ini KList SNone (repeat (new t) n)
  | IStr _ ms => Ini KList SNone ((fix go (ms : list (option string * ity)) :=
      match ms with [] => [] | (_, t) :: r => new t :: go r end) ms)
  end.

(** string_initializer() (parse.c 1628-1661), for an array of known length: the elements that both
    have. *)
Fixpoint puts (ms : list ini) (s : list Z) : list ini :=
  match ms, s with
  | c :: ms, z :: s => set (SC z) c :: puts ms s
  | _, _ => ms
  end.
Definition string_initializer (s : list Z) (n : ini) : ini := with_arr n (puts (arr n) s).

(** is_str_tok() (parse.c 1663-1676): what follows the literal. *)
Definition is_str_tok (t : list tok) : option (list Z * list tok) :=
  match t with
  | TE e :: r => match str e with Some s => Some (s, r) | None => None end
  | TX _ s :: r => Some (s, JUNK :: r)
  | _ => None
  end.
(** assign() (parse.c): one expression. *)
Definition assign (t : list tok) : res (E * list tok) :=
  match t with
  | TE e :: r | TX e _ :: r => ROk (e, r)
  | _ => RErr
  end.
(** skip() (tokenize.c) of "," "=" "}". *)
Definition skip_comma (t : list tok) : res (list tok) := match t with COMMA :: r => ROk r | _ => RErr end.
Definition skip_eq (t : list tok) : res (list tok) := match t with EQ :: r => ROk r | _ => RErr end.
Definition skip_rb (t : list tok) : res (list tok) := match t with RB :: r => ROk r | _ => RErr end.
Definition stops (t : list tok) : bool :=
  match t with RB :: _ | IDX _ :: _ | RNG _ _ :: _ | DOT _ :: _ => true | _ => false end.
Definition at_rb (t : list tok) : bool := match t with RB :: _ => true | _ => false end.
(** comma_list() (parse.c 561-576) with "}": [None] after the closing brace. *)
Definition comma_list (t : list tok) (sc : bool) : res (option (list tok) * list tok) :=
  match t with
  | RB :: r => ROk (None, r)
  | _ => if sc then match t with
                    | COMMA :: RB :: r => ROk (None, r)
                    | COMMA :: r => ROk (Some r, r)
                    | _ => RErr
                    end
         else ROk (Some t, t)
  end.
(** skip_excess_element() (parse.c 1617-1625). *)
Fixpoint skip_excess (t : list tok) : res (list tok) :=
  match t with
  | LB :: r => bind (skip_excess r) skip_rb
  | TE _ :: r | TX _ _ :: r => ROk r
  | _ => RErr
  end.

(** get_struct_member() (parse.c 3906-3920) and struct_designator() (1720-1731): the index of the
    member, and whether it has the name itself. *)
Fixpoint member (T : ity) (s : string) : option (nat * bool) :=
  match T with
  | IStr _ ms =>
      (fix go (k : nat) (ms : list (option string * ity)) : option (nat * bool) :=
         match ms with
         | [] => None
         | (None, t) :: r => match member t s with Some _ => Some (k, false) | None => go (Datatypes.S k) r end
         | (Some x, _) :: r => if String.eqb x s then Some (k, true) else go (Datatypes.S k) r
         end) 0 ms
  | _ => None
  end.
(** array_designator() (parse.c 1702-1718): begin and end are of type int. *)
Definition array_designator (n : nat) (i j : Z) : res (Z * Z) :=
  let b := int_conv i in
  if (Z.of_nat n <=? b)%Z then RErr
  else let e := int_conv j in
  if (Z.of_nat n <=? e)%Z then RErr
  else if (e <? b)%Z then RErr
  else ROk (b, e).
Definition is_arr (T : ity) : bool := match T with IArr _ _ => true | _ => false end.

(** An element or member of mem_arr, to be initialised by [g]. *)
Definition on_child {A} (T : ity) (n : ini) (i : nat) (g : ity -> ini -> res (ini * A)) : res (ini * A) :=
  match kid T i, nth_error (arr n) i with
  | Some U, Some c => bind (g U c) (fun '(c', a) => ROk (with_arr n (upd (arr n) i c'), a))
  | _, _ => RUB
  end.

(** initializer2() (parse.c 1821-1908), list_initializer() (1806-1816), braced_initializer()
    (1793-1804; [loop] is its loop) and designation() (1733-1765; [each] is the loop over a range,
    which parses the same tokens for every element). *)
Fixpoint init2 (f : nat) (T : ity) (n : ini) (t : list tok) {struct f} : res (ini * list tok) :=
  match f with O => RFuel | Datatypes.S f =>
  let strs :=
    if chars T then
      match match t with
            | LB :: r => match is_str_tok r with Some (s, RB :: r) => Some (s, r) | _ => None end
            | _ => None
            end with
      | Some x => Some x
      | None => is_str_tok t
      end
    else None in
  match strs with
  | Some (s, r) => ROk (string_initializer s n, r)
  | None =>
      match T with
      | IArr _ _ =>
          match t with
          | LB :: r => braced f T n r
          | _ => listi f T n t 0
          end
      | IStr false _ =>
          match t with
          | LB :: r => braced f T n r
          | _ =>
              bind (assign t) (fun '(e, r) =>
                if compat e T then ROk (set (SE e) n, r)
                else listi f T n t 0)
          end
      | IStr true _ =>
          match t with
          | LB :: r => braced f T (with_slot (SMem 0) n) r
          | _ =>
              bind (assign t) (fun '(e, r) =>
                if compat e T then ROk (set (SE e) n, r)
                else on_child T (with_slot (SMem 0) n) 0 (fun U c => init2 f U c t))
          end
      | IScal _ =>
          match t with
          | LB :: r => bind (init2 f T n r) (fun '(n, t) => bind (skip_rb t) (fun r => ROk (n, r)))
          | _ => bind (assign t) (fun '(e, r) => ROk (set (SE e) n, r))
          end
      end
  end
  end
with listi (f : nat) (T : ity) (n : ini) (t : list tok) (idx : nat) {struct f} : res (ini * list tok) :=
  match f with O => RFuel | Datatypes.S f =>
  if Nat.ltb idx (length (arr n)) && negb (at_rb t) then
    bind (match idx with O => ROk t | _ => skip_comma t end) (fun t2 =>
      if stops t2 then ROk (n, t)
      else bind (on_child T n idx (fun U c => init2 f U c t2))
             (fun '(n, t) => listi f T n t (Datatypes.S idx)))
  else ROk (n, t)
  end
with braced (f : nat) (T : ity) (n : ini) (t : list tok) {struct f} : res (ini * list tok) :=
  match f with O => RFuel | Datatypes.S f =>
  bind (listi f T n t 0) (fun '(n, t') => loop f T n t' (length t))
  end
with loop (f : nat) (T : ity) (n : ini) (t : list tok) (start : nat) {struct f} : res (ini * list tok) :=
  match f with O => RFuel | Datatypes.S f =>
  bind (comma_list t (negb (Nat.eqb (length t) start))) (fun '(more, r) =>
    match more with
    | None => ROk (n, r)
    | Some t =>
        match t with
        | IDX _ :: _ | RNG _ _ :: _ | DOT _ :: _ =>
            bind (desg f T n t) (fun '(n, t) => loop f T n t start)
        | _ => bind (skip_excess t) (fun t => loop f T n t start)
        end
    end)
  end
with desg (f : nat) (T : ity) (n : ini) (t : list tok) {struct f} : res (ini * list tok) :=
  match f with O => RFuel | Datatypes.S f =>
  match match t with IDX i :: r => Some (i, i, r) | RNG i j :: r => Some (i, j, r) | _ => None end with
  | Some (i, j, r) =>
      match T with
      | IArr len _ =>
          bind (array_designator len i j) (fun '(b, e) =>
            if (b <? 0)%Z then RUB
            else bind (each f T (with_kind KList n) r (Z.to_nat b) (Datatypes.S (Z.to_nat e - Z.to_nat b)) r)
                   (fun '(n, t) => listi f T n t (Datatypes.S (Z.to_nat e))))
      | _ => RErr
      end
  | None =>
      match t with
      | DOT s :: r =>
          match member T s with
          | None => RErr
          | Some (k, named) =>
              let n := with_kind KList n in
              let t := if named then r else t in
              if is_union T then on_child T (with_slot (SMem k) n) k (fun U c => desg f U c t)
              else bind (on_child T n k (fun U c => desg f U c t))
                     (fun '(n, t) => listi f T n t (Datatypes.S k))
          end
      | _ => bind (skip_eq t) (fun r => init2 f T n r)
      end
  end
  end
with each (f : nat) (T : ity) (n : ini) (start : list tok) (i c : nat) (t : list tok) {struct f} : res (ini * list tok) :=
  match f with O => RFuel | Datatypes.S f =>
  match c with
  | O => ROk (n, t)
  | Datatypes.S c =>
      bind (on_child T n i (fun U m => desg f U m start)) (fun '(n, t) => each f T n start (Datatypes.S i) c t)
  end
  end.

(** count_array_init_elements() (parse.c 1767-1791): the length of an array of unknown bound whose
    elements have type [U], from the initializers [t] after the opening brace; [m] is "dummy". *)
Fixpoint count (f : nat) (U : ity) (m : ini) (t : list tok) (i max : Z) : res Z :=
  match f with O => RFuel | Datatypes.S f =>
  bind (comma_list t (negb (i =? 0)%Z)) (fun '(more, _) =>
    match more with
    | None => ROk max
    | Some t =>
        bind (match t with
              | IDX i :: r | RNG _ i :: r => bind (desg f U m r) (fun x => ROk (x, int_conv i))
              | _ => bind (init2 f U m t) (fun x => ROk (x, i))
              end) (fun '((m, t), i) =>
          if (i =? 2 ^ 31 - 1)%Z then RUB
          else count f U m t (i + 1)%Z (Z.max max (i + 1)%Z))
    end)
  end.
(** initializer2() on an array of unknown bound (parse.c 1821-1857 with INIT_FLEXIBLE, 1628-1630):
    the length that the array gets, and its initializer. *)
Definition unknown (f : nat) (U : ity) (t : list tok) : res (nat * (ini * list tok)) :=
  let strs :=
    if chars (IArr 0 U) then
      match match t with
            | LB :: r => match is_str_tok r with Some (s, RB :: r) => Some (s, r) | _ => None end
            | _ => None
            end with
      | Some x => Some x
      | None => is_str_tok t
      end
    else None in
  match strs with
  | Some (s, r) => ROk (length s, (string_initializer s (new (IArr (length s) U)), r))
  | None =>
      let '(brace, r) := match t with LB :: r => (true, r) | _ => (false, t) end in
      bind (count f U (new U) r 0 0) (fun len =>
        let T := IArr (Z.to_nat len) U in
        bind (if brace then braced f T (new T) r else listi f T (new T) r 0)
          (fun x => ROk (Z.to_nat len, x)))
  end.

(** create_lvar_init() (parse.c 1958-1996): the assignments, made after the object was set to
    zero (lvar_initializer() 2023-2029). A union only has assignments to its member initmem. *)
Fixpoint assigns (T : ity) (n : ini) {struct n} : res (list (ev E)) :=
  match n with
  | Ini KNone _ _ => ROk []
  | Ini KExpr s _ =>
      match T, s with
      | IArr _ _, _ => RErr
      | _, SExp s => ROk [Put [] s]
      | _, _ => RUB
      end
  | Ini KList s ms =>
      let go := fix go (k : nat) (ms : list ini) : res (list (ev E)) :=
        match ms with
        | [] => ROk []
        | c :: r =>
            bind (if is_union T && negb (match s with SMem i => Nat.eqb i k | _ => false end) then ROk []
                  else match kid T k with
                       | Some U => bind (assigns U c) (fun v => ROk (map (pre [k]) v))
                       | None => ROk []
                       end) (fun v =>
            bind (go (Datatypes.S k) r) (fun w => ROk (v ++ w)))
        end in
      match T with IScal _ => RErr | _ => go 0 ms end
  end.
End Model.
Arguments ROk {A} a.
Arguments RErr {A}.
Arguments RUB {A}.
Arguments RFuel {A}.
Arguments SNone {E}.
Arguments SExp {E} s.
Arguments SMem {E} i.
Arguments Ini {E} k s ms.
Arguments new {E} T.
Arguments kindof {E} n.
Arguments slotof {E} n.
Arguments arr {E} n.
Arguments with_arr {E} n ms.
Arguments with_kind {E} k n.
Arguments with_slot {E} s n.
Arguments set {E} s n.
Arguments puts {E} ms s.
Arguments string_initializer {E} s n.
Arguments is_str_tok {E} str t.
Arguments assign {E} t.
Arguments skip_comma {E} t.
Arguments skip_eq {E} t.
Arguments skip_rb {E} t.
Arguments stops {E} t.
Arguments at_rb {E} t.
Arguments comma_list {E} t sc.
Arguments skip_excess {E} t.
Arguments on_child {E A} T n i g.
Arguments init2 {E} compat str f T n t.
Arguments listi {E} compat str f T n t idx.
Arguments braced {E} compat str f T n t.
Arguments loop {E} compat str f T n t start.
Arguments desg {E} compat str f T n t.
Arguments each {E} compat str f T n start i c t.
Arguments count {E} compat str f U m t i max.
Arguments unknown {E} compat str f U t.
Arguments assigns {E} T n.
