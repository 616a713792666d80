(** Specification of the output of -E: what reading it gives. *)
From Coq Require Import ZArith List Bool.
From Verif Require Import Base LexModel PrintModel.
Import ListNotations.
Local Open Scope Z_scope.

(** A token as it is read: kind (with the value of a literal), spelling, first on its line,
    white space before it. *)
Definition seen := (tkind * list Z * bool * bool)%type.
Definition spelling (buf : list Z) (t : token) : list Z := firstn (tlen t) (skipn (loc t) buf).
Definition see (buf : list Z) (t : token) : seen := (kind t, spelling buf t, at_bol t, has_space t).
(** [reads o text l]: the tokenizer takes [text] and finds the tokens [l]. *)
Definition reads (o : lopt) (text : list Z) (l : list seen) : Prop :=
  exists toks e, tokenize o (text ++ [0]) = Ok (toks ++ [e]) /\ kind e = TK_EOF /\
    map (see (text ++ [0])) toks = l.

(** Tokens written one after the other without anything between them form a run. *)
Definition joined (P : bool) (t u : ptok) : bool :=
  negb (pbol u) && negb (psp u) && (P || Nat.eqb (pfile t) (pfile u)).
Fixpoint runs (P : bool) (l : list ptok) : list (list ptok) :=
  match l with
  | [] => []
  | t :: r =>
      match runs P r with
      | g :: gs => if (match r with u :: _ => joined P t u | [] => false end) then (t :: g) :: gs else [t] :: g :: gs
      | [] => [[t]]
      end
  end.
(** Where the tokens of a run begin. *)
Fixpoint starts (off : nat) (l : list ptok) : list nat :=
  match l with
  | [] => []
  | t :: r => off :: starts (off + length (ptext t)) r
  end.
(** A run on a line of its own is read as the tokens it consists of. *)
Definition run_reads (o : lopt) (r : list ptok) : Prop :=
  exists toks e, tokenize o (concat (map ptext r) ++ [10; 0]) = Ok (toks ++ [e]) /\ kind e = TK_EOF /\
    map kind toks = map pkind r /\ map loc toks = starts 0 r /\ map tlen toks = map (fun t => length (ptext t)) r.

(** Names that can stand between quotes, and lines. *)
Definition plain_name (s : list Z) : Prop := ~ In 34 s /\ ~ In 92 s /\ ~ In 10 s /\ ~ In 0 s.
Definition placed (t : ptok) : Prop := plain_name (pname t) /\ 0 <= pline t < 2147483648.

(** The tokens of a marker: # line "file". *)
Definition name_shown (s : list Z) (v : list Z) : Prop :=
  (s = [45] /\ v = [60; 115; 116; 100; 105; 110; 62]) \/ (s <> [45] /\ v = s).
Definition decimal (n : Z) (ds : list Z) : Prop :=
  ds <> [] /\ (forall d, In d ds -> 48 <= d <= 57) /\ fold_left (fun v d => v * 10 + (d - 48)) ds 0 = n /\
  (hd 48 ds = 48 -> ds = [48]).
Inductive shown (P : bool) : bool -> option nat -> list ptok -> list seen -> Prop :=
(** [shown P first mark l v]: reading the output gives the tokens with their kinds and
    spellings in order. A token is first on its line if it was, if it is the first of all or if
    a marker precedes it; white space precedes it if it did and the token was not the first of
    its line. A marker precedes the first token of each stretch from one file. *)
| sh_nil : forall f m, shown P f m [] []
| sh_plain : forall f m t r v, P = true \/ m = Some (pfile t) -> shown P false m r v ->
    shown P f m (t :: r) ((pkind t, ptext t, f || pbol t, psp t && negb (pbol t)) :: v)
| sh_mark : forall f m t r v ds name, P = false -> m <> Some (pfile t) ->
    decimal (pline t) ds -> name_shown (pname t) name -> shown P false (Some (pfile t)) r v ->
    shown P f m (t :: r)
      ((TK_PUNCT, [35], true, false) :: (TK_PP_NUM, ds, false, true) ::
       (TK_STR E8 name, [34] ++ name ++ [34], false, true) ::
       (pkind t, ptext t, true, psp t && negb (pbol t)) :: v).
