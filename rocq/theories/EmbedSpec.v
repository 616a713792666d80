(** #embed and __has_embed as C23 describes them (6.10.1, 6.10.4). *)
From Coq Require Import String ZArith List Bool.
Import ListNotations.
Local Open Scope string_scope.
Local Open Scope list_scope.

(** A token with its spelling, or the number made for a byte of the resource. *)
Inductive tok : Type := Tx (s : string) | Num (v : Z).
Definition LP : tok := Tx "(".
Definition RP : tok := Tx ")".

(** Token sequences with matching parentheses. *)
Inductive balanced : list tok -> Prop :=
| bal_nil : balanced []
| bal_tok : forall t l, t <> LP -> t <> RP -> balanced l -> balanced (t :: l)
| bal_paren : forall a b, balanced a -> balanced b -> balanced (LP :: a ++ RP :: b).

(** The standard parameters, each with a balanced token sequence in parentheses. *)
Inductive pname : Type := Limit | IfEmpty | Prefix | Suffix.
Definition pname_dec : forall a b : pname, {a = b} + {a <> b}.
Proof. decide equality. Defined.
Definition spell (n : pname) : string :=
  match n with Limit => "limit" | IfEmpty => "if_empty" | Prefix => "prefix" | Suffix => "suffix" end.
Definition param : Type := (pname * list tok)%type.
Definition written (ps : list param) : list tok :=
  flat_map (fun p => Tx (spell (fst p)) :: LP :: snd p ++ [RP]) ps.
Fixpoint lookup (n : pname) (ps : list param) : option (list tok) :=
  match ps with
  | [] => None
  | (m, l) :: r => if pname_dec n m then Some l else lookup n r
  end.
Definition body (n : pname) (ps : list param) : list tok :=
  match lookup n ps with Some l => l | None => [] end.

(** The bytes that remain under a limit, and the list of integers for them. *)
Definition take (lim : option Z) (data : list Z) : list Z :=
  match lim with
  | None => data
  | Some v => if (Z.of_nat (length data) <=? v)%Z then data else firstn (Z.to_nat v) data
  end.
Fixpoint commas (d : list Z) : list tok :=
  match d with
  | [] => []
  | [b] => [Num b]
  | b :: r => Num b :: Tx "," :: commas r
  end.

(** What the directive is replaced by. *)
Definition expansion (ps : list param) (lim : option Z) (data : list Z) : list tok :=
  match take lim data with
  | [] => body IfEmpty ps
  | d => body Prefix ps ++ commas d ++ body Suffix ps
  end.
(** The value of __has_embed for a resource that is there. *)
Definition has_value (lim : option Z) (data : list Z) : Z :=
  match take lim data with [] => 2 | _ => 1 end.
