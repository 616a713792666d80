(** Model of #line: preprocess.c 1190-1209, 1233-1234, 1391-1399, 1495-1499. *)
From Coq Require Import ZArith List Bool.
From Verif Require Import Base IntModel NumModel MarkSpec.
Import ListNotations.
Local Open Scope Z_scope.

(** What follows the number after macro expansion. *)
Inductive after : Type := Nothing | Name (s : list Z) | Junk.
(** The file in source order: a directive whose arguments, beginning on line [first] and ending on line [last],
    are the pp-number [w] and [a] after expansion (lines and arguments are those of split_line and
    expand_tok), or a token of the output, or __LINE__, from line [l]. Tokens of macro bodies have
    an origin (preprocess.c:1228-1232, 1496-1498) and count as tokens from its line. *)
Inductive item : Type := Dir (first last : nat) (w : list Z) (a : after) | Tok (l : nat).

(** The fields line_delta and display_file of File (slimcc.h:158-166). *)
Record file : Type := mkfile { line_delta : Z; display_file : list Z }.

(** preprocess.c:1190-1209; [line] is start->line_no. A float is not of type TY_INT. The type is TY_INT for
    unsigned constants too; line_delta is an int. *)
Definition read_line_marker (f : file) (line : nat) (w : list Z) (a : after) : outcome file :=
  do r <- convert_pp_number w;
  match r with
  | None => Abort
  | Some (t, val) =>
      match kd t with
      | KInt =>
          let f1 := mkfile (sext 32 (val - Z.of_nat line - 1)) (display_file f) in
          match a with
          | Nothing => Ok f1
          | Name s => Ok (mkfile (line_delta f1) s)
          | Junk => Abort
          end
      | _ => Abort
      end
  end.

(** preprocess.c:1233-1234 and 1499, an addition of ints. *)
Definition display (f : file) (l : nat) : outcome (Z * list Z) :=
  let n := Z.of_nat l + line_delta f in
  if (- 2 ^ 31 <=? n) && (n <? 2 ^ 31) then Ok (n, display_file f) else UB.

(** preprocess.c:1213-1246, only what belongs to line numbers. *)
Fixpoint preprocess2 (f : file) (l : list item) : outcome (list (Z * list Z)) :=
  match l with
  | [] => Ok []
  | Dir first _ w a :: r => do f1 <- read_line_marker f first w a; preprocess2 f1 r
  | Tok n :: r => do d <- display f n; do o <- preprocess2 f r; Ok (d :: o)
  end.

(** The lines of the items do not go back, and a directive ends its line. *)
Fixpoint in_order (lo : nat) (l : list item) : Prop :=
  match l with
  | [] => True
  | Dir first last _ _ :: r => (lo <= first <= last)%nat /\ in_order (S last) r
  | Tok n :: r => (lo <= n)%nat /\ in_order n r
  end.
(** The directives in terms of the specification. *)
Definition marked (l : list item) (marks : nat -> option Z) (names : nat -> option (list Z)) : Prop :=
  (forall first last w a, In (Dir first last w a) l ->
     (exists v, says w v /\ marks last = Some v) /\
     match a with Name s => names last = Some s | Nothing => names last = None | Junk => False end) /\
  (forall k, (forall first w a, ~ In (Dir first k w a) l) -> marks k = None /\ names k = None).

(** Directives on one line whose number has no leading zero and at most 226 characters, in a file of less than 2^31 lines. *)
Definition plain_item (i : item) : Prop :=
  match i with
  | Dir first last w _ => first = last /\ (length w <= 226)%nat /\ (exists d r, w = d :: r /\ d <> 48) /\
      (0 < first)%nat /\ Z.of_nat first < 2 ^ 31
  | Tok n => (0 < n)%nat
  end.
(** The lines of the tokens of the output. *)
Fixpoint toks (l : list item) : list nat :=
  match l with [] => [] | Tok n :: r => n :: toks r | Dir _ _ _ _ :: r => toks r end.
