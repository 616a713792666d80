(** Data of the examples of C58, and what is claimed of the initializers that are parsed wrongly. *)
From Coq Require Import String ZArith List Bool PeanoNat.
From Verif Require Import Base BrcSpec BrcModel.
Import ListNotations.
Local Open Scope string_scope.
Local Open Scope list_scope.

(** Data of the examples: expressions are numbers; 1000 has type struct P { int x, y; }, 1001 has
    type union W { int i; float f; }; 500 is "abc" and 501 is "x". *)
Definition exP : ity := IStr false [(Some "x", IScal true); (Some "y", IScal true)].
Definition exW : ity := IStr true [(Some "i", IScal true); (Some "f", IScal false)].
Definition ex_compat (e : nat) (T : ity) : bool :=
  match T with
  | IStr u ((Some s, _) :: _) =>
      if u then Nat.eqb e 1001 && String.eqb s "i" else Nat.eqb e 1000 && String.eqb s "x"
  | _ => false
  end.
Definition ex_str (e : nat) : option (list Z) :=
  if Nat.eqb e 500 then Some [97; 98; 99; 0]%Z else if Nat.eqb e 501 then Some [120; 0]%Z else None.
(** struct { struct P a; char s[4]; union { int u[2]; float v; }; struct P z[3]; union W w; } *)
Definition exT : ity :=
  IStr false [(Some "a", exP); (Some "s", IArr 4 (IScal true));
              (None, IStr true [(Some "u", IArr 2 (IScal true)); (Some "v", IScal false)]);
              (Some "z", IArr 3 exP); (Some "w", exW)].
Definition m (s : string) : list desig := [DMem s].

Definition bl (l : list nat) : init nat := IB (map (fun e => ([], IE e)) l) false.

(** The scalar [x] should have the value [v] but gets [w]. *)
Definition wrong (T : ity) (i : init nat) (x : path) (v w : value nat) : Prop :=
  whole T /\ (exists b, sub T x = Some (IScal b)) /\
  exists V n A, fill ex_compat ex_str true i T = Some (V, []) /\ final T V x = v /\
    (exists N, forall f, N <= f -> init2 ex_compat ex_str f T (new T) (text i) = ROk (n, [])) /\
    assigns T n = ROk A /\ final T A x = w /\ v <> w.
(** An initializer of C that the parser does not take. *)
Definition refused (T : ity) (i : init nat) : Prop :=
  whole T /\ (exists V, fill ex_compat ex_str true i T = Some (V, [])) /\
  exists N, forall f, N <= f -> init2 ex_compat ex_str f T (new T) (text i) = RErr.
