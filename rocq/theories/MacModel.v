(** Model of macro expansion (preprocess.c). Not modelled: built-in macros with a handler
    (__LINE__ and so on), __VA_TAIL__, directives between the arguments of a call, and the
    special case for __attribute__ of cdefs.h (preprocess.c:926-932). A token list ends with an
    EOF token, represented by the end of the list. *)
From Coq Require Import Ascii String ZArith List Bool.
From Verif Require Import Base PpSpec.
Import ListNotations.
Local Open Scope string_scope.
Local Open Scope list_scope.

(** TK_IDENT; TK_STR or TK_INT_NUM; other; TK_PMARK. *)
Inductive kind := KId | KLit | KOther | KPmark.
(** [sp] is has_space || at_bol, [noexp] is dont_expand. *)
Record mtok := mkmtok { mkind : kind; mtext : string; sp : bool; noexp : bool }.
Record mac := mkmac { mobj : bool; mparams : list string; mva : bool; mbody : list mtok }.
Definition mtable := list (string * mac).

Definition is_id (t : mtok) : bool := match mkind t with KId => true | _ => false end.
Definition is_lit (t : mtok) : bool := match mkind t with KLit => true | _ => false end.
Definition is_pmark (t : mtok) : bool := match mkind t with KPmark => true | _ => false end.
(** The characters of a token: new_pmark sets len to 0, preprocess.c:143-148. *)
Definition ttext (t : mtok) : string := match mkind t with KPmark => EmptyString | _ => mtext t end.
(** equal, tokenize.c:109. *)
Definition eqt (t : mtok) (s : string) : bool := String.eqb (ttext t) s.
Definition eqh (l : list mtok) (s : string) : bool := match l with t :: _ => eqt t s | [] => false end.
Definition paint (t : mtok) : mtok := mkmtok (mkind t) (mtext t) (sp t) true.
(** align_token(t, u), preprocess.c:663-666. *)
Definition align (t u : mtok) : mtok := mkmtok (mkind t) (mtext t) (sp u) (noexp t).
Definition align_first (l : list mtok) (u : mtok) : list mtok := match l with [] => [] | t :: r => align t u :: r end.

(** join_tokens, preprocess.c:611-648, add_slash set: [pos] is whether something was written. *)
Fixpoint slashed (s : string) : string :=
  match s with
  | EmptyString => EmptyString
  | String c r =>
      if Ascii.eqb c "\"%char || Ascii.eqb c """"%char then String "\"%char (String c (slashed r)) else String c (slashed r)
  end.
Fixpoint join_tokens (pos : bool) (l : list mtok) : string :=
  match l with
  | [] => EmptyString
  | t :: r =>
      let s := if is_lit t then slashed (mtext t) else mtext t in
      let here := ((if sp t && pos then " " else "") ++ s)%string in
      (here ++ join_tokens (pos || negb (String.eqb here "")) r)%string
  end.
(** quote_string, preprocess.c:202-209. *)
Definition quote_string (s : string) : string := ("""" ++ s ++ """")%string.
(** stringize, preprocess.c:652-661; new_str_token, preprocess.c:211-214, tokenizes the text. *)
Definition stringize (hash : mtok) (l : list mtok) : mtok :=
  mkmtok KLit (quote_string (join_tokens false (filter (fun t => negb (is_pmark t)) l))) (sp hash) false.

(** read_macro_arg_one, preprocess.c:493-519: the argument and what follows it. *)
Fixpoint read_arg_one (rest : bool) (lvl : nat) (l : list mtok) : outcome (list mtok * list mtok) :=
  match l with
  | [] => Abort
  | t :: r =>
      if Nat.eqb lvl 0 && (eqt t ")" || negb rest && eqt t ",") then Ok ([], l)
      else
        let lvl' := if eqt t "(" then S lvl else if eqt t ")" then pred lvl else lvl in
        do q <- read_arg_one rest lvl' r; Ok (t :: fst q, snd q)
  end.
(** read_macro_args, preprocess.c:521-539: [n] arguments are to be read, [first] before the first.
    The second result is omit_comma; [strict] is opt_std != STD_NONE. *)
Fixpoint read_args (strict va : bool) (n : nat) (first : bool) (l : list mtok) : outcome (list (list mtok) * bool) :=
  match n with
  | O => if eqh l ")" then Ok ([], false) else Abort
  | S n' =>
      let is_va := va && Nat.eqb n' 0 in
      if is_va && eqh l ")" then
        do q <- read_arg_one is_va 0 l;
        if eqh (snd q) ")" then Ok ([fst q], negb (strict && first)) else Abort
      else
        do l1 <- (if first then Ok l else match l with t :: r => if eqt t "," then Ok r else Abort | [] => Abort end);
        do q <- read_arg_one is_va 0 l1;
        do q2 <- read_args strict va n' false (snd q);
        Ok (fst q :: fst q2, snd q2)
  end.

(** MacroContext. *)
Record ctx := mkctx { cmac : mac; cargs : list (list mtok); omit : bool }.
Fixpoint index (s : string) (l : list string) : option nat :=
  match l with [] => None | x :: r => if String.eqb x s then Some 0%nat else match index s r with Some n => Some (S n) | None => None end end.

Section Expand.
Variable paste : mtok -> mtok -> outcome mtok.   (* preprocess.c:669-682 *)
Variable strict : bool.
Variable tbl : mtable.

(** preprocess.c:411-415. *)
Definition find_mac (t : mtok) : option mac := if is_id t then lookup (mtext t) tbl else None.

Section Subst.
Variable ea : list mtok -> outcome (list mtok).  (* expand_tok *)
Variable c : ctx.
(** preprocess.c:567-575. *)
Definition has_non_empty_va : outcome bool :=
  if mva (cmac c) then do a <- ea (last (cargs c) []); Ok (match a with [] => false | _ => true end) else Ok false.
(** find_arg, preprocess.c:577-608: the tokens of the argument, its expansion, and what follows. *)
Definition find_arg (sub : list mtok -> outcome (list mtok)) (l : list mtok) :
    outcome (option (list mtok * outcome (list mtok) * list mtok)) :=
  match l with
  | [] => Ok None
  | t :: r =>
      if is_id t then
        match index (mtext t) (mparams (cmac c)) with
        | Some i => let a := nth i (cargs c) [] in Ok (Some (a, ea a, r))
        | None =>
            if eqt t "__VA_OPT__" && eqh r "(" then
              do q <- read_arg_one true 0 (tl r);
              do b <- has_non_empty_va;
              do x <- (if b then sub (fst q) else Ok []);
              Ok (Some (x, Ok x, tl (snd q)))
            else Ok None
        end
      else Ok None
  end.
Definition is_va_param (l : list mtok) : bool :=
  match l with
  | t :: _ => is_id t && match index (mtext t) (mparams (cmac c)) with Some i => Nat.eqb (S i) (length (mparams (cmac c))) | None => false end
  | [] => false
  end.
(** subst, preprocess.c:685-806. [acc] is the output in reverse, its head is cur. *)
Fixpoint subst (n : nat) (acc : list mtok) (l : list mtok) : outcome (list mtok) :=
  match n with
  | O => UB
  | S n' =>
      match l with
      | [] => Ok (rev acc)
      | t :: r =>
          if eqt t "#" then
            do a <- find_arg (subst n' []) r;
            match a with
            | Some (raw, _, rest) => subst n' (stringize t raw :: acc) rest
            | None => Abort
            end
          else if eqt t "," && eqh r "##" && mva (cmac c) && is_va_param (tl r) then
            if omit c then subst n' acc (tl (tl r)) else subst n' (t :: acc) (tl r)
          else if eqt t "##" then
            match acc, r with
            | [], _ => Abort
            | _, [] => Abort
            | cur :: acc', u :: r' =>
                if is_pmark cur then subst n' acc r
                else
                  do a <- find_arg (subst n' []) r;
                  match a with
                  | Some (raw, _, rest) =>
                      match raw with
                      | [] => subst n' acc rest
                      | x :: xs =>
                          do cur' <- (if is_pmark x then Ok cur else paste cur x);
                          subst n' (rev xs ++ cur' :: acc') rest
                      end
                  | None => do cur' <- paste cur u; subst n' (cur' :: acc') r'
                  end
            end
          else
            do a <- find_arg (subst n' []) l;
            match a with
            | Some (raw, ex, rest) =>
                do x <- (if eqh rest "##" then Ok raw else ex);
                match x with
                | [] => subst n' (mkmtok KPmark "" (sp t) false :: acc) rest
                | _ => subst n' (rev (align_first x t) ++ acc) rest
                end
            | None => if eqt t "__VA_TAIL__" && eqh r "(" then Abort else subst n' (t :: acc) r
            end
      end
  end.
End Subst.

(** insert_objlike, preprocess.c:808-829. *)
Fixpoint insert_objlike (acc : list mtok) (l : list mtok) : outcome (list mtok) :=
  match l with
  | [] => Ok (rev acc)
  | t :: r =>
      if eqt t "##" then
        match acc, r with
        | cur :: acc', u :: r' => do p <- paste cur u; insert_objlike (p :: acc') r'
        | _, _ => Abort
        end
      else insert_objlike (t :: acc) r
  end.

(** Locks: [own] are the macros locked while this list is processed, innermost first, each with
    the number of tokens that remain at its stop token; [outer] are those locked around it, whose
    stop tokens are not in this list. pop_macro_lock, preprocess.c:157-162. *)
Fixpoint pop (own : list (string * nat)) (n : nat) : list (string * nat) :=
  match own with
  | (m, s) :: o => if Nat.eqb s n then pop o n else own
  | [] => []
  end.
Definition names (own : list (string * nat)) : list string := map fst own.
Definition locked (outer : list string) (own : list (string * nat)) (s : string) : bool :=
  existsb (String.eqb s) (names own ++ outer).
(** prepare_funclike_args, preprocess.c:849-881, from the token after the parenthesis: the
    remaining locks, the tokens up to the closing parenthesis, and what follows. *)
Fixpoint prepare (outer : list string) (own : list (string * nat)) (lvl : nat) (l : list mtok) :
    outcome (list (string * nat) * list mtok * list mtok) :=
  match l with
  | [] => Abort
  | t :: r =>
      let own' := pop own (length l) in
      let t' := match find_mac t with Some _ => if locked outer own' (mtext t) then paint t else t | None => t end in
      if Nat.eqb lvl 0 && eqt t ")" then Ok (own', [t'], r)
      else
        let lvl' := if eqt t "(" then S lvl else if eqt t ")" then pred lvl else lvl in
        do q <- prepare outer own' lvl' r;
        let '(o, a, rest) := q in Ok (o, t' :: a, rest)
  end.
(** preprocess.c:964-965. *)
Definition or_space (l : list mtok) (u : mtok) : list mtok :=
  match l with [] => [] | t :: r => mkmtok (mkind t) (mtext t) (sp t || sp u) (noexp t) :: r end.

(** expand_tok, preprocess.c:541-558 (and the same loop in preprocess2), with expand_macro,
    preprocess.c:902-982. Running out of fuel is UB, which has no other source. *)
Fixpoint expand (f : nat) (outer : list string) (own : list (string * nat)) (l : list mtok) : outcome (list mtok) :=
  match f with
  | O => UB
  | S f' =>
      match l with
      | [] => Ok []
      | t :: r =>
          let emit u := do o <- expand f' outer (pop own (length r)) r; Ok (u :: o) in
          let enter b own2 r2 :=
            match b with
            | [] => expand f' outer (pop own2 (length r2)) (or_space r2 t)
            | x :: b' => expand f' outer ((mtext t, length r2) :: own2) (align x t :: b' ++ r2)
            end in
          if noexp t then emit t
          else match find_mac t with
          | None => emit t
          | Some m =>
              if locked outer own (mtext t) then emit (paint t)
              else if mobj m then do b <- insert_objlike [] (mbody m); enter b own r
              else if eqh r "(" then
                do q <- prepare outer (pop own (length r)) 0 (tl r);
                let '(own2, pre, r3) := q in
                do a <- read_args strict (mva m) (length (mparams m)) true pre;
                do b <- subst (expand f' (names own2 ++ outer) []) (mkctx m (fst a) (snd a)) (S (length (mbody m))) [] (mbody m);
                enter (filter (fun x => negb (is_pmark x)) b) own2 r3
              else emit t
          end
      end
  end.
End Expand.
