(** The kinds of files the driver tells apart, by the names. *)
From Coq Require Import ZArith List Bool.
From Verif Require Import LexSpec.
Import ListNotations.
Local Open Scope Z_scope.

Inductive ftype : Type := FILE_C | FILE_ASM | FILE_PP_ASM | FILE_OBJ | FILE_AR | FILE_DSO.

(** .a, .so, .o, .lo, .c, .s, .S *)
Definition extensions : list (list Z * ftype) :=
  [([46; 97], FILE_AR); ([46; 115; 111], FILE_DSO); ([46; 111], FILE_OBJ); ([46; 108; 111], FILE_OBJ);
   ([46; 99], FILE_C); ([46; 115], FILE_ASM); ([46; 83], FILE_PP_ASM)].
Definition so : list Z := [46; 115; 111].

(** Numbers with a dot before each: a version. *)
Definition version (v : list Z) : Prop :=
  exists vs, vs <> [] /\ (forall d, In d vs -> d <> [] /\ forallb digit d = true) /\ v = concat (map (cons 46) vs).

Inductive names_type (opt_E : bool) (s : list Z) : ftype -> Prop :=
| nt_ext : forall p e t, In (e, t) extensions -> s = p ++ e -> names_type opt_E s t
| nt_version : forall p v, s = p ++ so ++ v -> version v -> names_type opt_E s FILE_DSO
| nt_stdin : opt_E = true -> s = [45] -> names_type opt_E s FILE_C
| nt_header : forall p, opt_E = true -> s = p ++ [46; 104] -> names_type opt_E s FILE_C.

(** The name of an output: the last component of the path without its extension. *)
Inductive out_name (s extn : list Z) : list Z -> Prop :=
| on_ext : forall dir stem e, (dir = [] \/ exists d, dir = d ++ [47]) -> ~ In 47 stem -> ~ In 47 e -> ~ In 46 e ->
    s = dir ++ stem ++ 46 :: e -> out_name s extn (stem ++ extn)
| on_none : forall dir stem, (dir = [] \/ exists d, dir = d ++ [47]) -> ~ In 47 stem -> ~ In 46 stem -> stem <> [] ->
    s = dir ++ stem -> out_name s extn (stem ++ extn).

(** The file for the dependencies, by the manual of GCC (-MF, -MD, -M): with -MD and -o the suffix of the argument of -o is replaced
    by .d, and without -o the directory of the input is removed as well. *)
Inductive dep_file : option (list Z) -> bool -> option (list Z) -> list Z -> list Z -> Prop :=
| df_MF : forall f MD o i, dep_file (Some f) MD o i f
| df_MD_o : forall dir stem e i, (dir = [] \/ exists d, dir = d ++ [47]) -> ~ In 47 stem -> ~ In 47 e -> ~ In 46 e ->
    dep_file None true (Some (dir ++ stem ++ 46 :: e)) i (dir ++ stem ++ [46; 100])
| df_MD : forall i r, out_name i [46; 100] r -> dep_file None true None i r
| df_o : forall o i, dep_file None false (Some o) i o
| df_stdout : forall i, dep_file None false None i [45].
