(** Model of #embed: preprocess.c 244-272, 1113-1188 and skip_paren of parse.c 1230-1248. The parameters
    are the token list up to the end of the directive, whose end is TK_EOF; a pointer into it is the
    rest of the list. The sequences are cut out of the list in place, each at most once, so that the
    others are not affected. Opening the file is an option, reading it never fails. Left out: the
    file name (C38) and the evaluation of the limit ([ev], eval_const_expr; see C11). *)
From Coq Require Import String ZArith List Bool.
From Verif Require Import Base EmbedSpec.
Import ListNotations.
Local Open Scope string_scope.
Local Open Scope list_scope.

(** tokenize.c:106-118 *)
Definition equal (t : tok) (s : string) : bool := match t with Tx x => String.eqb x s | Num _ => false end.
(** tokenize.c:120-124, for the left parenthesis. *)
Definition skip_lp (l : list tok) : outcome (list tok) :=
  match l with t :: m => if equal t "(" then Ok m else Abort | [] => Abort end.
(** parse.c:1230-1248; the level never becomes negative. *)
Fixpoint skip_paren (level : nat) (l : list tok) : outcome (list tok) :=
  match l with
  | [] => Abort
  | t :: m =>
      if Nat.eqb level 0 && equal t ")" then Ok m
      else if equal t "(" then skip_paren (S level) m
      else if equal t ")" then skip_paren (pred level) m
      else skip_paren level m
  end.
(** preprocess.c:244-266 without the tokens that are attached. *)
Fixpoint split_paren2 (level : nat) (l : list tok) : outcome (list tok) :=
  match l with
  | [] => Abort
  | t :: m =>
      if Nat.eqb level 0 && equal t ")" then Ok []
      else do r <- split_paren2 (if equal t "(" then S level else if equal t ")" then pred level else level) m;
           Ok (t :: r)
  end.

(** preprocess.c:1114-1117 *)
Record seqs : Type := mkseqs { limit_seq : option (list tok); if_empty_seq : option (list tok);
  prefix_seq : option (list tok); suffix_seq : option (list tok) }.
Definition no_seqs : seqs := mkseqs None None None None.
(** preprocess.c:1119-1130; every round takes at least one token. *)
Fixpoint params (fuel : nat) (q : seqs) (l : list tok) : outcome (seqs * list tok) :=
  match fuel with
  | O => Abort
  | S k =>
      match l with
      | [] => Ok (q, [])
      | t :: m =>
          if equal t "limit" then
            do s <- skip_lp m; do r <- skip_paren 0 s;
            params k (mkseqs (Some s) (if_empty_seq q) (prefix_seq q) (suffix_seq q)) r
          else if equal t "if_empty" then
            do s <- skip_lp m; do r <- skip_paren 0 s;
            params k (mkseqs (limit_seq q) (Some s) (prefix_seq q) (suffix_seq q)) r
          else if equal t "prefix" then
            do s <- skip_lp m; do r <- skip_paren 0 s;
            params k (mkseqs (limit_seq q) (if_empty_seq q) (Some s) (suffix_seq q)) r
          else if equal t "suffix" then
            do s <- skip_lp m; do r <- skip_paren 0 s;
            params k (mkseqs (limit_seq q) (if_empty_seq q) (prefix_seq q) (Some s)) r
          else Ok (q, l)
      end
  end.

(** preprocess.c:1131-1134; the second part is the value of [limit]. *)
Definition read_params (ev : list tok -> outcome Z) (l : list tok) : outcome (seqs * Z * list tok) :=
  do x <- params (S (length l)) no_seqs l;
  match limit_seq (fst x) with
  | None => Ok (fst x, 0%Z, snd x)
  | Some s => do e <- split_paren2 0 s; do v <- ev e; Ok (fst x, v, snd x)
  end.

(** preprocess.c:1162-1173: the bytes read, and the tokens made of them. *)
Fixpoint read_bytes (limited : bool) (limit : Z) (data : list Z) : list Z :=
  match data with
  | [] => []
  | b :: d => if negb limited || (0 <? limit)%Z then b :: read_bytes limited (limit - 1) d else []
  end.
Fixpoint tokens (first : bool) (d : list Z) : list tok :=
  match d with
  | [] => []
  | b :: r => (if first then [] else [Tx ","]) ++ Num b :: tokens false r
  end.
Definition is_set (x : option (list tok)) : bool := match x with Some _ => true | None => false end.
Definition opt_split (x : option (list tok)) : outcome (list tok) :=
  match x with Some s => split_paren2 0 s | None => Ok [] end.

(** preprocess.c:1113-1188 for the directive. *)
Definition embed_file (ev : list tok -> outcome Z) (cont l : list tok) (file : option (list Z)) : outcome (list tok) :=
  do x <- read_params ev l;
  let '(q, limit, r) := x in
  match r with
  | _ :: _ => Abort
  | [] =>
      match file with
      | None => Abort
      | Some data =>
          match tokens true (read_bytes (is_set (limit_seq q)) limit data) with
          | [] => do e <- opt_split (if_empty_seq q); Ok (e ++ cont)
          | d => do p <- opt_split (prefix_seq q); do s <- opt_split (suffix_seq q); Ok (p ++ d ++ s ++ cont)
          end
      end
  end.
(** preprocess.c:1136-1153, for __has_embed. *)
Definition has_embed (ev : list tok -> outcome Z) (l : list tok) (file : option (list Z)) : outcome Z :=
  do x <- read_params ev l;
  let '(q, limit, r) := x in
  match r with
  | _ :: _ => Ok 0%Z
  | [] =>
      match file with
      | None => Ok 0%Z
      | Some data =>
          if match data with [] => true | _ => false end || (is_set (limit_seq q) && (limit =? 0)%Z) then Ok 2%Z else Ok 1%Z
      end
  end.
