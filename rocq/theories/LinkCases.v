(** Translation units for C60. *)
From Coq Require Import Ascii String ZArith List Bool Lia.
From Verif Require Import LinkSpec.
Import ListNotations.
Local Open Scope string_scope.
Local Open Scope Z_scope.
Local Open Scope list_scope.

Definition int := Base 4 4.
Definition long := Base 8 8.
Definition var (x : string) (t : ty) := IVar x SNone false t None.
Definition ext (x : string) (t : ty) := IVar x SExtern false t None.
Definition fn (x : string) (l : list bitem) := IFun x false false false (Some l).

(** struct S { 24 bytes, aligned to 8 };  extern int a[];  static int x;  extern int x;  int a[5];  static int x = 3;
    int f(void);  struct S s;  int b[];
    int f(void) { extern int a[]; { int a; a; { typedef int b; b; } int g(void); g; } a; x; s; f; }
    inline int g(void) { x; }  _Thread_local long t = 9;  int u[] = { .. 3 .. }; *)
Definition good : list item :=
  [IRec 7 24 8; ext "a" (Arr None int); IVar "x" SStatic false int None; ext "x" int; var "a" (Arr (Some 5) int);
   IVar "x" SStatic false int (Some (3, int)); IFun "f" false false false None; var "s" (Rec 7); var "b" (Arr None int);
   fn "f" [BExtern "a" false (Arr None int); BBlock [BLocal 1 "a"; BUse 1 "a"; BBlock [BOther "b"; BUse 2 "b"]; BFun "g" false false; BUse 3 "g"];
           BUse 4 "a"; BUse 5 "x"; BUse 6 "s"; BUse 7 "f"];
   IFun "g" false false true (Some [BUse 8 "x"]); IVar "t" SNone true long (Some (9, long)); IVar "u" SNone false (Arr None int) (Some (8, Arr (Some 3) int))].

(** int a[3]; int a[]; *)
Definition shorter := [var "a" (Arr (Some 3) int); var "a" (Arr None int)].
(** int a[]; extern int a[5]; *)
Definition later := [var "a" (Arr None int); ext "a" (Arr (Some 5) int)].
(** static int x; extern int x = 3; *)
Definition made_global := [IVar "x" SStatic false int None; IVar "x" SExtern false int (Some (3, int))].
(** inline int f(void) { } extern int f(void); *)
Definition only_static := [IFun "f" false false true (Some []); IFun "f" false true false None].
(** extern struct S s; struct S { long m; }; struct S s; *)
Definition unaligned := [ext "s" (Rec 1); IRec 1 8 8; var "s" (Rec 1)].
(** int x; void f(void) { int x; { extern int x; x; } } *)
Definition hidden_object := [var "x" int; fn "f" [BLocal 1 "x"; BBlock [BExtern "x" false int; BUse 2 "x"]]].
(** int g(void); void f(void) { typedef int g; { int g(void); g; } } *)
Definition hidden_function := [IFun "g" false false false None; fn "f" [BOther "g"; BBlock [BFun "g" false false; BUse 2 "g"]]].
(** extern int a[]; extern int a[5]; void f(void) { sizeof a; } *)
Definition open_type := [ext "a" (Arr None int); ext "a" (Arr (Some 5) int); fn "f" [BUse 1 "a"]].
(** int x; long x;   int x; int x(void);   static int x; int x; *)
Definition two_types := [var "x" int; var "x" long].
Definition two_kinds := [var "x" int; IFun "x" false false false None].
Definition two_links := [IVar "x" SStatic false int None; var "x" int].

