(** Linkage of identifiers and external definitions (C23 6.2.2, 6.7.4, 6.9.2): what the declarations of a
    translation unit mean. *)
From Coq Require Import Ascii String ZArith List Bool.
Import ListNotations.
Local Open Scope string_scope.
Local Open Scope Z_scope.
Local Open Scope list_scope.

(** * Translation units *)
(** Object types: a scalar type of some size and alignment, a structure or union, an array. *)
Inductive ty := Base (size align : Z) | Rec (i : Z) | Arr (n : option Z) (t : ty).
Inductive sclass := SNone | SStatic | SExtern | SConstexpr.
(** What a block holds, as far as names go. [k] tells declarations and uses apart. *)
Inductive bitem :=
| BUse (k : Z) (x : string)
| BLocal (k : Z) (x : string)                    (* an object or parameter without linkage *)
| BOther (x : string)                            (* a typedef name or enumerator *)
| BExtern (x : string) (tls : bool) (t : ty)     (* extern T x; *)
| BFun (x : string) (ex il : bool)              (* a function declaration *)
| BBlock (l : list bitem).
(** [d] in an initializer names its value, with the type it completes the object to. *)
Inductive item :=
| IRec (i size align : Z)                        (* struct i { ... }; *)
| IVar (x : string) (s : sclass) (tls : bool) (t : ty) (init : option (Z * ty))
| IFun (x : string) (st ex il : bool) (body : option (list bitem)).

(** * Types *)
Definition table := list (Z * (Z * Z)).
Fixpoint rec_of (r : table) (i : Z) : option (Z * Z) :=
  match r with [] => None | (j, p) :: r => if Z.eqb j i then Some p else rec_of r i end.
(** Size and alignment of a complete type. *)
Fixpoint layout (r : table) (t : ty) : option (Z * Z) :=
  match t with
  | Base s a => Some (s, a)
  | Rec i => rec_of r i
  | Arr None _ => None
  | Arr (Some n) t => match layout r t with Some (s, a) => Some (n * s, a) | None => None end
  end.
Definition elem (t : ty) : ty := match t with Arr _ u => u | _ => t end.
Inductive compat : ty -> ty -> Prop :=
| co_refl : forall t, compat t t
| co_arr : forall m n t, m = n \/ m = None \/ n = None -> compat (Arr m t) (Arr n t).
Definition composite (s t : ty) : ty := match s with Arr None _ => t | _ => s end.

(** * Linkage *)
Inductive link := Internal | External.
(** What an identifier stands for: an object or function with linkage, with the composite type if it
    is an object; another object; something else. *)
Inductive ent := ELink (l : link) (t : option ty) | ELocal (k : Z) | EOther.
Definition env := list (list (string * ent)).
Fixpoint assoc {A} (x : string) (l : list (string * A)) : option A :=
  match l with [] => None | (y, a) :: l => if String.eqb y x then Some a else assoc x l end.
Fixpoint visible (e : env) (x : string) : option ent :=
  match e with [] => None | f :: e => match assoc x f with Some a => Some a | None => visible e x end end.
Definition bind_name (x : string) (a : ent) (e : env) : env := match e with [] => [] | f :: e => ((x, a) :: f) :: e end.
(** 6.2.2 p4: extern, and functions without storage class. *)
Definition extern_link (e : env) (x : string) : link := match visible e x with Some (ELink l _) => l | _ => External end.
Definition seen_type (e : env) (x : string) (t : ty) : ty :=
  match visible e x with Some (ELink _ (Some u)) => composite u t | _ => t end.

(** A declaration. [Tent]: a tentative definition; [Def d]: a definition with an initializer. *)
Inductive how := Ext | Tent | Def (d : Z).
Inductive what :=
| FObj (h : how) (static_ : bool) (t : ty) (tls : bool) (done : bool)    (* done: the structure in it is complete here *)
| FFun (only_inline : bool) (body : bool).                   (* only_inline: inline without extern *)
(** [f_prev]: what the name stood for before. *)
Record fact := Fact { f_name : string; f_link : link; f_file : bool; f_prev : option ent; f_what : what }.
(** A use, and what it stands for. *)
Definition use := (Z * string * option ent)%type.

(** The declarations and uses in a block: the names after them, the declarations, the uses. *)
Section Blocks.
Variable done : ty -> bool.
Fixpoint one (b : bitem) (e : env) {struct b} : env * list fact * list use :=
  match b with
  | BUse k x => (e, [], [(k, x, visible e x)])
  | BLocal k x => (bind_name x (ELocal k) e, [], [])
  | BOther x => (bind_name x EOther e, [], [])
  | BExtern x tls t =>
      let n := extern_link e x in
      (bind_name x (ELink n (Some (seen_type e x t))) e, [Fact x n false (visible e x) (FObj Ext false t tls (done t))], [])
  | BFun x ex il =>
      let n := extern_link e x in
      (bind_name x (ELink n None) e, [Fact x n false (visible e x) (FFun (il && negb ex) false)], [])
  | BBlock m =>
      let '(_, f, u) :=
        (fix go (l : list bitem) (e : env) {struct l} : env * list fact * list use :=
           match l with
           | [] => (e, [], [])
           | b :: l => let '(e1, f1, u1) := one b e in let '(e2, f2, u2) := go l e1 in (e2, f1 ++ f2, u1 ++ u2)
           end) m ([] :: e) in
      (e, f, u)
  end.
Fixpoint block (l : list bitem) (e : env) : env * list fact * list use :=
  match l with
  | [] => (e, [], [])
  | b :: l => let '(e1, f1, u1) := one b e in let '(e2, f2, u2) := block l e1 in (e2, f1 ++ f2, u1 ++ u2)
  end.
End Blocks.

(** * The declarations of a translation unit *)
Definition complete_now (r : table) (t : ty) : bool := match layout r (elem t) with Some _ => true | None => false end.
Definition item_facts (i : item) (r : table) (e : env) : table * env * list fact * list use :=
  match i with
  | IRec i s a => ((i, (s, a)) :: r, e, [], [])
  | IVar x s tls t init =>
      let n := match s with SStatic | SConstexpr => Internal | SExtern => extern_link e x | SNone => External end in
      let t' := match init with Some (_, u) => u | None => t end in
      let h := match init, s with Some (d, _), _ => Def d | None, SExtern => Ext | None, _ => Tent end in
      (r, bind_name x (ELink n (Some (seen_type e x t'))) e,
       [Fact x n true (visible e x) (FObj h (match s with SStatic | SConstexpr => true | _ => false end) t' tls (complete_now r t'))], [])
  | IFun x st ex il body =>
      let n := if st then Internal else extern_link e x in
      let e' := bind_name x (ELink n None) e in
      let '(f, u) := match body with
                     | Some l => let '(_, f, u) := block (complete_now r) l ([] :: e') in (f, u)
                     | None => ([], [])
                     end in
      (r, e', Fact x n true (visible e x) (FFun (il && negb ex) (match body with Some _ => true | None => false end)) :: f, u)
  end.
Fixpoint unit_facts (p : list item) (r : table) (e : env) : table * list fact * list use :=
  match p with
  | [] => (r, [], [])
  | i :: p =>
      let '(r1, e1, f1, u1) := item_facts i r e in
      let '(r2, f2, u2) := unit_facts p r1 e1 in (r2, f1 ++ f2, u1 ++ u2)
  end.
Definition facts (p : list item) : list fact := snd (fst (unit_facts p [] [[]])).
Definition uses (p : list item) : list use := snd (unit_facts p [] [[]]).
Definition records (p : list item) : table := fst (fst (unit_facts p [] [[]])).

(** Facts on one identifier. *)
Definition about (x : string) (p : list item) : list fact := filter (fun f => String.eqb (f_name f) x) (facts p).
Definition filed (l : list fact) : list fact := filter f_file l.
Definition types (l : list fact) : list ty := flat_map (fun f => match f_what f with FObj _ _ t _ _ => [t] | _ => [] end) l.
Definition bodies (l : list fact) : nat := length (filter (fun f => match f_what f with FFun _ b => b | _ => false end) l).
Definition inits (l : list fact) : list Z := flat_map (fun f => match f_what f with FObj (Def d) _ _ _ _ => [d] | _ => [] end) l.
Definition is_obj (f : fact) : bool := match f_what f with FObj _ _ _ _ _ => true | _ => false end.
Fixpoint composite_all (l : list ty) (s : ty) : ty := match l with [] => s | t :: l => composite_all l (composite s t) end.
Fixpoint sane (t : ty) : bool :=
  match t with
  | Base s _ => 0 <=? s
  | Rec _ => true
  | Arr n t => match n with Some n => 0 <=? n | None => true end && sane t
  end.
(** An array of unknown length. *)
Definition open (t : ty) : bool := match t with Arr None _ => true | _ => false end.

(** Constraints (6.2.2 p7, 6.7 p4, 6.9 p3-5, 6.9.2 p3): one linkage, compatible types, at most one definition;
    elements of arrays are complete, structures are completed once, initializers complete types; what is
    defined has a complete type at the end; used names are declared. *)
Record valid (p : list item) : Prop := {
  v_link : forall f g, In f (facts p) -> In g (facts p) -> f_name f = f_name g -> f_link f = f_link g /\ is_obj f = is_obj g;
  v_types : forall f g h s t c d k i u b m, In f (facts p) -> In g (facts p) -> f_name f = f_name g ->
    f_what f = FObj h s t c d -> f_what g = FObj k i u b m -> compat t u /\ c = b;
  v_one : forall x, (bodies (about x p) + length (inits (about x p)) <= 1)%nat;
  v_elems : forall f h s n t c d, In f (facts p) -> f_what f = FObj h s (Arr n t) c d -> d = true;
  v_sane : forall f h s t c d, In f (facts p) -> f_what f = FObj h s t c d -> sane t = true;
  v_recs : NoDup (map fst (records p)) /\ (forall i s a, In (i, (s, a)) (records p) -> 0 <= s);
  v_init : forall x s c t d u, In (IVar x s c t (Some (d, u))) p -> open u = false /\ (u = t \/ exists n e, t = Arr None e /\ u = Arr (Some n) e);
  v_whole : forall f h s t c d, In f (facts p) -> f_what f = FObj h s t c d -> h <> Ext -> layout (records p) (elem t) <> None;
  v_class : forall x st ex il b, In (IFun x st ex il b) p -> st && ex = false;
  v_constexpr : forall x c t, ~ In (IVar x SConstexpr c t None) p;
  v_uses : forall k x o, In (k, x, o) (uses p) -> o <> None }.

(** * What the object file defines *)
(** A function; an object with the value it is initialized with, or zero. *)
Inductive content := CFun | CObj (size align : Z) (tls : bool) (data : option Z).
Record sym := Sym { s_name : string; s_global : bool; s_what : content }.
(** System V ABI: an array of 16 bytes or more is aligned to 16. *)
Definition abi_align (t : ty) (s a : Z) : Z := match t with Arr _ _ => if 16 <=? s then Z.max 16 a else a | _ => a end.
(** 6.9.2 p5: an array of unknown length has one element. *)
Definition whole (t : ty) : ty := match t with Arr None u => Arr (Some 1) u | _ => t end.
Definition external (l : link) : bool := match l with External => true | Internal => false end.
Inductive defines (p : list item) : sym -> Prop :=
(** 6.9.2: an object with an initializer or tentatively defined, of the composite type. *)
| d_obj : forall f h st t tls done u l s a, In f (facts p) -> f_what f = FObj h st t tls done -> h <> Ext ->
    types (filed (about (f_name f) p)) = u :: l -> layout (records p) (whole (composite_all l u)) = Some (s, a) ->
    defines p (Sym (f_name f) (external (f_link f)) (CObj s (abi_align u s a) tls (hd_error (inits (about (f_name f) p)))))
(** 6.7.4 p7: a function all declarations of which at file scope are inline without extern has no external
    definition here; its definition serves this translation unit only. *)
| d_fun : forall f i, In f (facts p) -> f_what f = FFun i true ->
    defines p (Sym (f_name f)
                 (external (f_link f) && existsb (fun g => match f_what g with FFun i _ => negb i | _ => false end) (filed (about (f_name f) p)))
                 CFun).

(** * The declarations the compiler treats as C does *)
Record handled (p : list item) : Prop := {
  (** an object is not defined as an array of unknown length if a declaration tells the length *)
  h_open : forall f g h s t c d k i u b m, In f (facts p) -> In g (facts p) -> f_name f = f_name g -> f_file g = true ->
    f_what f = FObj h s t c d -> h <> Ext -> open t = true -> f_what g = FObj k i u b m -> open u = true;
  (** a definition of an object with internal linkage says static *)
  h_static : forall f h s t c d, In f (facts p) -> f_what f = FObj h s t c d -> h <> Ext -> f_link f = Internal -> s = true;
  (** at the first declaration of an object its type is complete *)
  h_first : forall x f l h s t c d, filed (about x p) = f :: l -> f_what f = FObj h s t c d -> d = true;
  (** of a function with an external definition, the first declaration is not inline without extern *)
  h_inline : forall x f l i b g j c, filed (about x p) = f :: l -> f_what f = FFun i b -> f_link f = External ->
    In g l -> f_what g = FFun j c -> j = false -> i = false;
  (** a declaration with linkage in a block does not hide one without *)
  h_block : forall f, In f (facts p) -> f_file f = false ->
    match f_prev f with Some (ELocal _) => False | Some EOther => is_obj f = true | _ => True end }.
