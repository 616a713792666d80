(** Integer constants (C23 6.4.4.1), independent of the model. *)
From Coq Require Import ZArith List Bool.
From Verif Require Import IntSpec LexSpec.
Import ListNotations.
Local Open Scope Z_scope.

Definition ndigit (base c : Z) : bool :=
  if base =? 16 then hexdigit c else (48 <=? c) && (c <? 48 + base).

(** Prefix, digits: base. *)
Inductive numeral : Z -> list Z -> list Z -> Prop :=
| num_dec : forall d ds, ndigit 10 d = true -> d <> 48 -> forallb (ndigit 10) ds = true -> numeral 10 [] (d :: ds)
| num_oct : forall ds, forallb (ndigit 8) ds = true -> numeral 8 [] (48 :: ds)
| num_hex : forall x d ds, In x [120; 88] -> forallb (ndigit 16) (d :: ds) = true -> numeral 16 [48; x] (d :: ds)
| num_bin : forall x d ds, In x [98; 66] -> forallb (ndigit 2) (d :: ds) = true -> numeral 2 [48; x] (d :: ds).

(** Suffix: unsigned, number of l. *)
Inductive suffix : list Z -> bool -> nat -> Prop :=
| suf_none : suffix [] false 0
| suf_u : forall u, In u [117; 85] -> suffix [u] true 0
| suf_l : forall l, In l [108; 76] -> suffix [l] false 1
| suf_ll : forall l, In l [108; 76] -> suffix [l; l] false 2
| suf_ul : forall u l, In u [117; 85] -> In l [108; 76] -> suffix [u; l] true 1
| suf_lu : forall u l, In u [117; 85] -> In l [108; 76] -> suffix [l; u] true 1
| suf_ull : forall u l, In u [117; 85] -> In l [108; 76] -> suffix [u; l; l] true 2
| suf_llu : forall u l, In u [117; 85] -> In l [108; 76] -> suffix [l; l; u] true 2.

(** The table of 6.4.4.1p5. *)
Definition candidates (dec u : bool) (l : nat) : list ityp :=
  match u, l with
  | false, O => if dec then [TInt; TLong; TLLong] else [TInt; TUInt; TLong; TULong; TLLong; TULLong]
  | true, O => [TUInt; TULong; TULLong]
  | false, S O => if dec then [TLong; TLLong] else [TLong; TULong; TLLong; TULLong]
  | true, S O => [TULong; TULLong]
  | false, _ => if dec then [TLLong] else [TLLong; TULLong]
  | true, _ => [TULLong]
  end.
(** The first type of the list that can represent the value. *)
Definition const_type (dec u : bool) (l : nat) (v : Z) : option ityp :=
  find (fun t => in_rangeb t v) (candidates dec u l).

(** A pp-number begins with a digit or a period. *)
Definition starts_number (w : list Z) : Prop := match w with c :: _ => digit c = true \/ c = 46 | [] => False end.
(** A spelling that begins 0x0x. *)
Definition double_prefix (w : list Z) : Prop := exists x y r, w = 48 :: x :: 48 :: y :: r /\ In x [120; 88] /\ In y [120; 88].
(** The spelling without digit separators. *)
Definition no_sep (w : list Z) : list Z := filter (fun c => negb (c =? 39)) w.
