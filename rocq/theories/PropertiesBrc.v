(** C58: initializers. *)
From Coq Require Import String ZArith List Bool Lia.
From Verif Require Import Base BrcSpec BrcModel BrcCases BrcEnd BrcProofs.
Import ListNotations.
Local Open Scope string_scope.
Local Open Scope list_scope.

(** The assignments that the parser makes of an initializer leave in every scalar part of the
    object the value that C gives it: of an expression, of an element of a string literal, or
    zero. *)
Theorem C58_initializers E (compat : E -> ity -> bool) str i T V rest :
  whole T -> fill compat str false i T = Some (V, []) -> tidy V ->
  exists n A, (exists N, forall f, N <= f -> init2 compat str f T (new T) (text i ++ rest) = ROk (n, rest)) /\
  assigns T n = ROk A /\
  forall x b, sub T x = Some (IScal b) -> final T V x <> VOther -> final T A x = final T V x.
Proof. exact (initializers E compat str i T V rest). Qed.
Print Assumptions C58_initializers.
(** An array of unknown bound gets the length of its initializer, and the same values. *)
Theorem C58_unknown_bound E (compat : E -> ity -> bool) str i U a V rest :
  whole (IArr a U) -> fill compat str false i (IArr a U) = Some (V, []) -> reach V < a -> reach V <> 0 -> tidy V ->
  exists n A, (exists N, forall f, N <= f -> unknown compat str f U (text i ++ rest) = ROk (reach V, (n, rest))) /\
  assigns (IArr (reach V) U) n = ROk A /\
  forall x b, sub (IArr (reach V) U) x = Some (IScal b) -> final (IArr (reach V) U) V x <> VOther ->
    final (IArr (reach V) U) A x = final (IArr (reach V) U) V x.
Proof. exact (unknown_bound E compat str i U a V rest). Qed.
Print Assumptions C58_unknown_bound.
(** The parser ends on any tokens. *)
Theorem C58_parser_ends E (compat : E -> ity -> bool) str T t :
  exists N r, r <> RFuel /\ forall f, N <= f -> init2 compat str f T (new T) t = r.
Proof. exact (init2_ends E compat str T t). Qed.
Print Assumptions C58_parser_ends.
Theorem C58_unknown_ends E (compat : E -> ity -> bool) str U t :
  exists N r, r <> RFuel /\ forall f, N <= f -> unknown compat str f U t = r.
Proof. exact (unknown_ends E compat str U t). Qed.
Print Assumptions C58_unknown_ends.

(** { 1, 2, "abc", .v = 4, { 5, .y = 6, }, 7, 8, .z[2].x = 9, 10, 11, .s[1] = 12 } *)
Definition ex_i : init nat :=
  IB [([], IE 1); ([], IE 2); ([], IE 500); (m "v", IE 4); ([], IB [([], IB [([], IE 5); (m "y", IE 6)] true); ([], IE 7); ([], IE 8)] false);
      ([DMem "z"; DIdx 2; DMem "x"], IE 9); ([], IE 10); ([], IE 11); ([DMem "s"; DIdx 1], IE 12)] false.
Example C58_ex : exists V, whole exT /\ fill ex_compat ex_str false ex_i exT = Some (V, []) /\ tidy V /\
  map (final exT V) [[0; 1]; [1; 0]; [1; 1]; [1; 3]; [2; 1]; [3; 0; 0]; [3; 0; 1]; [3; 1; 1]; [3; 2; 0]; [3; 2; 1]; [4; 0]] =
  [VSrc (SE 2) []; VSrc (SC 97) []; VSrc (SE 12) []; VSrc (SC 0) []; VSrc (SE 4) []; VSrc (SE 5) []; VSrc (SE 6) [];
   VSrc (SE 8) []; VSrc (SE 9) []; VSrc (SE 10) []; VSrc (SE 11) []].
Proof.
  eexists. split; [repeat (split; try lia; try discriminate)|]. split; [vm_compute; reflexivity|].
  split; [apply tidyb_ok; vm_compute; reflexivity|vm_compute; reflexivity].
Qed.
(** struct P z[] = { [3].y = 1, 2, [0] = 1000, 3, 4 } has 5 elements. *)
Definition ex_u : init nat :=
  IB [([DIdx 3; DMem "y"], IE 1); ([], IE 2); ([DIdx 0], IE 1000); ([], IE 3); ([], IE 4)] false.
Example C58_unknown_ex : exists V, whole (IArr 9 exP) /\ fill ex_compat ex_str false ex_u (IArr 9 exP) = Some (V, []) /\ tidy V /\
  reach V = 5 /\ map (final (IArr 5 exP) V) [[3; 0]; [3; 1]; [4; 0]; [4; 1]; [0; 1]; [1; 1]] =
  [VZero; VSrc (SE 1) []; VSrc (SE 2) []; VZero; VSrc (SE 1000) [1]; VSrc (SE 4) []].
Proof.
  eexists. split; [repeat (split; try lia; try discriminate)|]. split; [vm_compute; reflexivity|].
  split; [apply tidyb_ok; vm_compute; reflexivity|split; vm_compute; reflexivity].
Qed.
(** Also without an end of the initializer, and with a negative index. *)
Example C58_ends_ex : init2 ex_compat ex_str 40 exT (new exT) [LB; TE 1; COMMA; LB] = RErr /\
  unknown ex_compat ex_str 40 exP [LB; IDX (-1); DOT "x"; EQ; TE 1; TE 2; COMMA; TE 3; RB] <> RFuel.
Proof. split; [vm_compute; reflexivity|vm_compute; discriminate]. Qed.

(** * Initializers that override others (not [tidy]) *)
(** { .a = {1, 2}, .a = {3} } keeps the 2. *)
Theorem C58_override_list_refuted :
  wrong exT (IB [(m "a", bl [1; 2]); (m "a", bl [3])] false) [0; 1] VZero (VSrc (SE 2) []).
Proof. exact override_list. Qed.
Print Assumptions C58_override_list_refuted.
(** { .s = "abc", .s = "x" } keeps the 'c'. *)
Theorem C58_override_string_refuted :
  wrong exT (IB [(m "s", IE 500); (m "s", IE 501)] false) [1; 2] VZero (VSrc (SC 99) []).
Proof. exact override_string. Qed.
Print Assumptions C58_override_string_refuted.
(** { .a = p, .a = {1, 2} } keeps p. *)
Theorem C58_override_struct_refuted :
  wrong exT (IB [(m "a", IE 1000); (m "a", bl [1; 2])] false) [0; 0] (VSrc (SE 1) []) (VSrc (SE 1000) [0]).
Proof. exact override_struct. Qed.
Print Assumptions C58_override_struct_refuted.
(** { .a = p, .a.x = 1 } loses p.y. *)
Theorem C58_override_part_refuted :
  wrong exT (IB [(m "a", IE 1000); ([DMem "a"; DMem "x"], IE 1)] false) [0; 1] (VSrc (SE 1000) [1]) VZero.
Proof. exact override_part. Qed.
Print Assumptions C58_override_part_refuted.
(** { .w = u, .w = {1} }: initmem overwrites expr, which is then used. *)
Theorem C58_override_union_refuted :
  let i := IB [(m "w", IE 1001); (m "w", bl [1])] false in
  exists V n, fill ex_compat ex_str true i exT = Some (V, []) /\ final exT V [4; 0] = VSrc (SE 1) [] /\
    (exists N, forall f, N <= f -> init2 ex_compat ex_str f exT (new exT) (text i) = ROk (n, [])) /\ assigns exT n = RUB.
Proof. exact override_union. Qed.
Print Assumptions C58_override_union_refuted.

(** * Initializers of C outside [fill] without [ext] *)
(** char x[4] = {"abc",}; is taken for a pointer in x[0]. *)
Theorem C58_string_comma_refuted :
  wrong (IArr 4 (IScal true)) (IB [([], IE 500)] true) [0] (VSrc (SC 97) []) (VSrc (SE 500) []).
Proof. exact string_comma. Qed.
Print Assumptions C58_string_comma_refuted.
(** int x = {3,}; int x = {}; char x[2][4] = {"a"[0], 8}; are refused. *)
Theorem C58_accepts_refuted :
  refused (IScal true) (IB [([], IE 3)] true) /\ refused (IScal true) (IB [] false) /\
  refused (IArr 2 (IArr 4 (IScal true))) (IB [([], IX 7 [97; 0]%Z); ([], IE 8)] false).
Proof. exact refusals. Qed.
Print Assumptions C58_accepts_refuted.
(** int x[3] = {[-1] = 1}; makes the compiler use an element before its array, and
    int x[3] = {[4294967296] = 1}; is accepted. *)
Theorem C58_indices_refuted :
  (forall V, fill ex_compat ex_str true (IB [([DIdx (-1)], IE 1)] false) (IArr 3 (IScal true)) <> Some V) /\
  (exists N, forall f, N <= f -> init2 ex_compat ex_str f (IArr 3 (IScal true)) (new (IArr 3 (IScal true))) (text (IB [([DIdx (-1)], IE 1)] false)) = RUB) /\
  (forall V, fill ex_compat ex_str true (IB [([DIdx (2 ^ 32)], IE 1)] false) (IArr 3 (IScal true)) <> Some V) /\
  exists n, exists N, forall f, N <= f -> init2 ex_compat ex_str f (IArr 3 (IScal true)) (new (IArr 3 (IScal true))) (text (IB [([DIdx (2 ^ 32)], IE 1)] false)) = ROk (n, []).
Proof. exact indices. Qed.
Print Assumptions C58_indices_refuted.
