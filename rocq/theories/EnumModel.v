(** Model of enum specifiers: parse.c enum_specifier, update_enum_ty, in_ty_range and the
    enumerator constants of primary. Simplifications: the list of enumerators is given with the
    values and types of its constant expressions (C16); tags, redeclarations and the alignment of
    the type are omitted. *)
From Coq Require Import ZArith List Bool.
From Verif Require Import Base IntSpec IntModel InitModel EnumSpec.
Import ListNotations.
Local Open Scope Z_scope.

(** parse.c:254-258. *)
Definition in_ty_range (val : Z) (t : ty) : bool := eval_cast t val =? val.

Record st := mkst { val : Z; neg : bool; unsg : bool; base : ty }.

(** parse.c:1355-1378, one enumerator. *)
Definition enum_step (has_type : bool) (s : st) (e : enumerator) : outcome (Z * st) :=
  let val := match e with None => val s | Some (v, _) => i64 v end in
  let neg := match e with
             | None => neg s
             | Some (_, t) => neg s || (negb (uns (mty t)) && (val <? 0)) end in
  do bu <-
    (if in_ty_range val (base s) then Ok (base s, unsg s)
     else if has_type then Abort
     else if neg then
       Ok (if in_ty_range val ty_int && negb (unsg s) then ty_int else ty_long, unsg s)
     else Ok (if in_ty_range val ty_uint then ty_uint else ty_ulong, true));
  do next <- long_of (val + 1);
  Ok (val, mkst next neg (snd bu) (fst bu)).

(** parse.c:1353-1379. *)
Fixpoint enum_list (has_type : bool) (s : st) (l : list enumerator) : outcome (list Z * st) :=
  match l with
  | [] => Ok ([], s)
  | e :: r =>
      do p <- enum_step has_type s e;
      do q <- enum_list has_type (snd p) r;
      Ok (fst p :: fst q, snd q)
  end.

(** parse.c:1382-1388: the contents update_enum_ty gives to the type object, and is_unspec_enum. *)
Definition enum_close (s : st) : ty * bool :=
  if (match kd (base s) with KInt => true | _ => false end) && negb (neg s) && negb (unsg s)
  then (ty_uint, true)
  else if neg s && unsg s then (ty_long, false)
  else (base s, false).

(** parse.c:1337-1388. Without fixed type the object is new; with [Some t] it is the object of
    the type named after the colon, for an unqualified basic type the one shared by all
    declarations (unqual, type.c:77-89). The result has the enumerators, the new contents of the
    object and is_unspec_enum. *)
Definition enum_specifier (fixed : option ty) (l : list enumerator) : outcome (list Z * ty * bool) :=
  match l with
  | [] => Abort
  | _ =>
      do p <- match fixed with
              | Some t => enum_list true (mkst 0 false false t) l
              | None => enum_list false (mkst 0 false false ty_int) l
              end;
      Ok (fst p, fst (enum_close (snd p)), snd (enum_close (snd p)))
  end.

(** parse.c:4428-4431: an enumerator in an expression. *)
Definition enum_const (v : Z) (t : ty) (unspec : bool) : node := NNum (if unspec then ty_int else t) v.
